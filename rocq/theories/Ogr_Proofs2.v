(** A cell with a peak of the height of a line: what lines have in common with it. *)
From Coq Require Import List Arith Lia ZArith Bool Reals Lra.
From Verif Require Import Outcome Num ListAux Point_Model Container_Model Angle_Model Angle_Spec SwathGen_Model SwathGen_Spec
  SwathGen_Proofs Ogr_Model Ogr_Spec Ogr_Proofs.
Import ListNotations.
Open Scope R_scope.

Definition P (x y : R) : pt := mkPoint (N := RNum) x y 0.
Definition peaks : list (list pt) := [[P 0 0; P 8 0; P 8 4; P 4 4; P 4 (/ 2); P 2 1; P 0 0]].

Lemma crosses_vert (a b q : pt) : px a = px b ->
  (crosses a b q <-> (py a <= py q < py b \/ py b <= py q < py a) /\ px q < px a).
Proof.
  intros E. unfold crosses. rewrite <- E. replace (px a - px a) with 0 by ring. rewrite Rmult_0_r, Rplus_0_r. reflexivity.
Qed.

Lemma seg_P a b c d x y : on_segment (P a b) (P c d) (P x y) <-> exists t, 0 <= t <= 1 /\ x = a + t * (c - a) /\ y = b + t * (d - b).
Proof.
  unfold on_segment, P. cbn [px py pz]. split.
  - intros [t [T [X [Y _]]]]. exists t. auto.
  - intros [t [T [X Y]]]. exists t. split; [exact T|]. split; [exact X|]. split; [exact Y|]. assert (Q : 0 = 0 + t * (0 - 0)) by ring. exact Q.
Qed.
Lemma seg_P' a b c d x y : (exists t, 0 <= t <= 1 /\ x = a + t * (c - a) /\ y = b + t * (d - b)) -> on_segment (P a b) (P c d) (P x y).
Proof. apply seg_P. Qed.

Lemma xor_l (A B : Prop) : ~ B -> (xor A B <-> A).
Proof. unfold xor. tauto. Qed.
Lemma xor_r (A B : Prop) : ~ A -> (xor A B <-> B).
Proof. unfold xor. tauto. Qed.

Lemma no_cross a b c d x y : ~ (b <= y < d \/ d <= y < b) -> ~ crosses (P a b) (P c d) (P x y).
Proof. unfold crosses, P. cbn [px py]. tauto. Qed.

Lemma odd_peaks x y : y = 1 \/ y = 3 -> (odd_rings peaks (P x y) <-> 4 <= x < 8).
Proof.
  intros Y. cbn [odd_rings peaks odd_ring]. rewrite xor_l by tauto.
  rewrite xor_r by (apply no_cross; lra).
  assert (C1 : crosses (P 8 0) (P 8 4) (P x y) <-> x < 8) by (rewrite crosses_vert by reflexivity; unfold P; cbn [px py]; split; [lra|]; intro; split; [left; lra|assumption]).
  assert (C2 : crosses (P 4 4) (P 4 (/ 2)) (P x y) <-> x < 4) by (rewrite crosses_vert by reflexivity; unfold P; cbn [px py]; split; [lra|]; intro; split; [right; lra|assumption]).
  assert (N1 : ~ crosses (P 8 4) (P 4 4) (P x y)) by (apply no_cross; lra).
  assert (N2 : ~ crosses (P 4 (/ 2)) (P 2 1) (P x y)) by (apply no_cross; lra).
  assert (N3 : ~ crosses (P 2 1) (P 0 0) (P x y)) by (apply no_cross; lra).
  unfold xor. rewrite C1, C2. destruct (Rlt_dec x 8), (Rlt_dec x 4); split; intros; try tauto; try lra.
Qed.

Lemma border_peaks x y : (y = 1 \/ y = 3) -> (on_border peaks (P x y) <-> x = 4 \/ x = 8 \/ (y = 1 /\ x = 2)).
Proof.
  intros Y. unfold on_border, peaks. split.
  - intros [r [[<-|[]] O]]. cbn [on_line] in O. rewrite !seg_P in O.
    repeat (destruct O as [[t [T [X Y']]]|O]); [lra..|destruct O].
  - intros H. eexists; split; [left; reflexivity|]. cbn [on_line]. rewrite !seg_P. destruct H as [-> | [-> | [-> ->]]].
    + do 3 right; left. exists ((4 - y) / (7 / 2)). destruct Y as [-> | ->]; lra.
    + right; left. exists (y / 4). lra.
    + do 4 right; left. exists 1. lra.
Qed.

Lemma in_peaks x y : y = 1 \/ y = 3 -> (in_polygon peaks (P x y) <-> 4 <= x <= 8 \/ (y = 1 /\ x = 2)).
Proof.
  intros Y. unfold in_polygon. rewrite (odd_peaks x y Y), (border_peaks x y Y). split.
  - intros [H|[H|[H|H]]]; [left; lra|left; lra|left; lra|right; exact H].
  - intros [H|H]; [|tauto]. destruct (Rlt_dec x 8); [left; lra|]. right; right; left. lra.
Qed.

(** The points of a horizontal segment. *)
Lemma flat_segment a c y q : a < c -> (on_line [P a y; P c y] q <-> exists x, q = P x y /\ a <= x <= c).
Proof.
  intros L. cbn [on_line]. split.
  - intros [[t [T [X [Y Z]]]]|[]]. cbn [px py pz P] in *. exists (px q). split.
    + destruct q as [qx qy qz]. cbn in Y, Z |- *. unfold P. f_equal; lra.
    + assert (0 <= t * (c - a)) by (apply Rmult_le_pos; lra). assert (t * (c - a) <= 1 * (c - a)) by (apply Rmult_le_compat_r; lra). lra.
  - intros [x [-> [A C]]]. left. apply seg_P'. exists ((x - a) / (c - a)). split; [|split; [field; lra|ring]]. split.
    + apply Rmult_le_pos; [lra|left; apply Rinv_0_lt_compat; lra].
    + apply Rmult_le_reg_r with (c - a); [lra|]. unfold Rdiv. rewrite Rmult_assoc, Rinv_l; lra.
Qed.

(** The lines laid over it by a robot of width 2. *)
Definition peak_lines : list (list pt) := [[P (-12) 1; P 12 1]; [P (-12) 3; P 12 3]].

Lemma peaks_extent : extent (along 0) (concat peaks) 0 8 /\ extent (across_of 0) (concat peaks) 0 4.
Proof.
  unfold extent, along, across_of, peaks. rewrite cos_0, sin_0. cbn [concat app]. split; (split; [|split]).
  - exists (P 0 0). split; [left; reflexivity|unfold P; cbn [px py]; ring].
  - exists (P 8 0). split; [right; left; reflexivity|unfold P; cbn [px py]; ring].
  - intros p H. cbn [In] in H. repeat destruct H as [<-|H]; [..|destruct H]; unfold P; cbn [px py]; lra.
  - exists (P 0 0). split; [left; reflexivity|unfold P; cbn [px py]; ring].
  - exists (P 8 4). split; [do 2 right; left; reflexivity|unfold P; cbn [px py]; ring].
  - intros p H. cbn [In] in H. repeat destruct H as [<-|H]; [..|destruct H]; unfold P; cbn [px py]; lra.
Qed.

Lemma peaks_lines fuel : (2 <= fuel)%nat -> sg_lines fuel false 0 2 peaks = Ok peak_lines.
Proof.
  intros F. destruct peaks_extent as [HX HY]. rewrite (lines_eq 0 2 _ _ _ _ _ HX HY).
  rewrite (ys_run false (4 - 0) 2 2 fuel); [|exact F| |].
  - cbn [bind map seq]. unfold peak_lines, line_at. cbn [map]. unfold rotateFromPoint, p_rotateFromPoint. rewrite cos_0, sin_0.
    unfold P, origin, sg_curve_y0. cbn. repeat f_equal; refine (_ : @eq R _ _); field.
  - intros i Hi. destruct i as [|[|i]]; [| |lia]; unfold thr, sg_curve_y0; simpl; lra.
  - unfold thr, sg_curve_y0; simpl; lra.
Qed.

(** What they have in common with the cell. *)
Definition peak_cut : ogr RNum := GCollection [GPoint (P 2 1); GLine [P 4 1; P 8 1]; GLine [P 4 3; P 8 3]].

Lemma peak_cut_exact : cut_exactly in_polygon peak_lines peaks peak_cut.
Proof.
  intros q. unfold peak_cut, peak_lines. cbn [points_of]. rewrite !flat_segment by lra. split.
  - intros [->|[[x [-> H]]|[[x [-> H]]|[]]]].
    + split; [|apply in_peaks; lra]. eexists; split; [left; reflexivity|]. apply flat_segment; [lra|]. exists 2. split; [reflexivity|lra].
    + split; [|apply in_peaks; lra]. eexists; split; [left; reflexivity|]. apply flat_segment; [lra|]. exists x. split; [reflexivity|lra].
    + split; [|apply in_peaks; lra]. eexists; split; [right; left; reflexivity|]. apply flat_segment; [lra|]. exists x. split; [reflexivity|lra].
  - intros [[l [I O]] G]. destruct I as [<-|[<-|[]]]; apply flat_segment in O; try lra; destruct O as [x [-> H]]; apply in_peaks in G; try lra.
    + destruct G as [G|[_ ->]]; [|left; reflexivity]. right; left. exists x. auto.
    + destruct G as [G|[G _]]; [|lra]. right; right; left. exists x. auto.
Qed.

Lemma peak_stretch : stretch in_polygon peaks [P (-12) 1; P 12 1] (P 4 1).
Proof.
  exists (P 8 1). split; [intros E; apply (f_equal (@px RNum)) in E; cbn [px P] in E; lra|].
  intros s H. assert (O : on_line [P 4 1; P 8 1] s) by (left; exact H). apply flat_segment in O; [|lra]. destruct O as [x [-> X]].
  split; [apply flat_segment; [lra|exists x; split; [reflexivity|lra]]|apply in_peaks; lra].
Qed.

(** The ray to the left from a point between the border of the cell. *)
Definition ray_cut : ogr RNum := GCollection [GPoint (P 2 1); GLine [P 4 1; P 6 1]].

Lemma ray_cut_exact : cut_exactly in_polygon [[P 6 1; P (-6) 1]] peaks ray_cut.
Proof.
  assert (Ray : forall q, on_line [P 6 1; P (-6) 1] q <-> exists x, q = P x 1 /\ -6 <= x <= 6).
  { intros q. rewrite <- (flat_segment (-6) 6 1 q) by lra. cbn [on_line]. split; intros [[t [T [X [Y Z]]]]|[]]; left; exists (1 - t);
      (split; [lra|]); cbn [px py pz P] in *; (split; [lra|]; split; lra). }
  intros q. unfold ray_cut. cbn [points_of]. rewrite !flat_segment by lra. split.
  - intros [->|[[x [-> H]]|[]]].
    + split; [|apply in_peaks; lra]. eexists; split; [left; reflexivity|]. apply Ray. exists 2. split; [reflexivity|lra].
    + split; [|apply in_peaks; lra]. eexists; split; [left; reflexivity|]. apply Ray. exists x. split; [reflexivity|lra].
  - intros [[l [[<-|[]] O]] G]. apply Ray in O as [x [-> H]]. apply in_peaks in G; [|lra].
    destruct G as [G|[_ ->]]; [|left; reflexivity]. right; left. exists x. split; [reflexivity|lra].
Qed.
