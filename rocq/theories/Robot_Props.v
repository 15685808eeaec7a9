(** Theorems about f2c::types::Robot (src/fields2cover/types/Robot.cpp). *)
From Coq Require Import List ZArith Bool Reals Lia Lra Floats.
From Coq Require String.
From Verif Require Import Outcome Num Robot_Model.
Open Scope R_scope.

(** C75.  Construction succeeds exactly for a positive width and a non-negative coverage
    width, raising out_of_range otherwise; then both widths are positive (0 stands for
    the robot's width), the velocity is 1 for driving and turning, and the two
    limits are the given ones. *)
Theorem robot_widths : forall w c k dk : R,
  (w <= 0 \/ c < 0 -> rb_make RNum w c k dk = Throw OutOfRange) /\
  (0 < w -> 0 <= c -> exists r, rb_make RNum w c k dk = Ok r /\
     rb_getWidth RNum r = w /\ 0 < rb_getCovWidth RNum r /\ (c = 0 -> rb_getCovWidth RNum r = w) /\ (c <> 0 -> rb_getCovWidth RNum r = c) /\
     rb_getMaxCurv RNum r = k /\ rb_getMaxDiffCurv RNum r = dk /\ rb_getCruiseVel RNum r = 1 /\ rb_getTurnVel RNum r = 1).
Proof.
  intros w c k dk. unfold rb_make. cbn [nleb nltb neqb nofZ RNum]. split.
  - intros [H|H]; [rewrite (proj2 (Rleb_true w 0) H); reflexivity|]. rewrite (proj2 (Rltb_true c 0) H), orb_true_r. reflexivity.
  - intros Hw Hc. rewrite (proj2 (Rleb_false w 0)), (proj2 (Rltb_false c 0)) by lra. cbn [orb].
    eexists. split; [reflexivity|]. unfold rb_getWidth, rb_getCovWidth, rb_getMaxCurv, rb_getMaxDiffCurv, rb_getCruiseVel, rb_getTurnVel.
    cbn [rb_width rb_cov_width rb_max_icc rb_diff_curv rb_cruise rb_turn_vel]. split; [reflexivity|].
    unfold Reqb. destruct (Req_EM_T c 0) as [E|E]; repeat split; auto; try contradiction; lra.
Qed.
Print Assumptions robot_widths.

Example robot_widths_example : exists r, rb_make RNum 2 (rb_default_cov RNum) (rb_default_curv RNum) (rb_default_diff RNum) = Ok r /\ rb_getCovWidth RNum r = 2 /\ rb_getMaxCurv RNum r = 1.
Proof.
  destruct (robot_widths 2 0 1 (3 / 10)) as [_ H]. destruct (H ltac:(lra) ltac:(lra)) as (r & E & _ & _ & A & _ & B & _). exists r.
  split; [exact E|]. split; [apply A; reflexivity|exact B].
Qed.

(** A new robot object: width 0 (the default constructor validates nothing). *)
Theorem robot_default_refuted : exists r : robot RNum, r = rb_default RNum /\ ~ 0 < rb_getWidth RNum r /\ ~ 0 < rb_getCovWidth RNum r.
Proof. exists (rb_default RNum). unfold rb_default, rb_getWidth, rb_getCovWidth. cbn. repeat split; try reflexivity; lra. Qed.
Print Assumptions robot_default_refuted.

(** Otherwise it is as a robot made of its width alone: same velocities and limits. *)
Theorem robot_new : forall w : R, 0 < w -> exists r, rb_make RNum w (rb_default_cov RNum) (rb_default_curv RNum) (rb_default_diff RNum) = Ok r /\
  rb_setCovWidth RNum (rb_setWidth RNum (rb_default RNum) w) w = r /\
  rb_getWidth RNum r = w /\ rb_getCovWidth RNum r = w /\ rb_getCruiseVel RNum r = 1 /\ rb_getTurnVel RNum r = 1 /\
  rb_getMaxCurv RNum r = 1 /\ rb_getMaxDiffCurv RNum r = 3 / 10 /\ rb_getName RNum r = String.EmptyString.
Proof.
  intros w W. exists (rb_setCovWidth RNum (rb_setWidth RNum (rb_default RNum) w) w). split; [|repeat split].
  unfold rb_make, rb_default_cov.
  replace (nleb RNum w (nofZ RNum 0)) with false by (symmetry; exact (proj2 (Rleb_false w 0) W)).
  replace (nltb RNum (nofZ RNum 0) (nofZ RNum 0)) with false by (symmetry; exact (proj2 (Rltb_false 0 0) (Rle_refl 0))).
  replace (neqb RNum (nofZ RNum 0) (nofZ RNum 0)) with true by (symmetry; exact (proj2 (Reqb_true 0 0) eq_refl)). reflexivity.
Qed.
Print Assumptions robot_new.

Example robot_new_example : exists r : robot RNum, rb_make RNum 3 0 1 (3 / 10) = Ok r /\ rb_getCovWidth RNum r = 3.
Proof. destruct (robot_new 3 ltac:(lra)) as (r & E & _ & _ & C & _). exists r. split; [exact E|exact C]. Qed.

(** Nor do the setters: any width is stored. *)
Theorem robot_set_width_refuted : exists r r' : robot RNum, rb_make RNum 2 1 1 1 = Ok r /\ r' = rb_setCovWidth RNum (rb_setWidth RNum r (-3)) (-1) /\
  rb_getWidth RNum r' = -3 /\ rb_getCovWidth RNum r' = -1.
Proof.
  destruct (robot_widths 2 1 1 1) as [_ H]. destruct (H ltac:(lra) ltac:(lra)) as (r & E & _). exists r. eexists. split; [exact E|]. split; [reflexivity|]. split; reflexivity.
Qed.
Print Assumptions robot_set_width_refuted.

(** In floating point a width that is not a number passes the check. *)
Theorem robot_nan_refuted : exists w : float, match rb_make FNum w 1%float 1%float 1%float with
  | Ok r => PrimFloat.ltb 0 (rb_getWidth FNum r) = false /\ PrimFloat.eqb (rb_getWidth FNum r) (rb_getWidth FNum r) = false | _ => False end.
Proof. exists nan. vm_compute. auto. Qed.
Print Assumptions robot_nan_refuted.

(** The constructor does not take the absolute value of the limits. *)
Theorem robot_negative_curvature_refuted : exists r : robot RNum, rb_make RNum 2 1 (-1) (-2) = Ok r /\ rb_getMaxCurv RNum r < 0 /\ rb_getMaxDiffCurv RNum r < 0.
Proof.
  destruct (robot_widths 2 1 (-1) (-2)) as [_ H]. destruct (H ltac:(lra) ltac:(lra)) as (r & E & _ & _ & _ & _ & A & B & _). exists r. rewrite A, B. repeat split; auto; lra.
Qed.
Print Assumptions robot_negative_curvature_refuted.

(** C127.  Each setter changes its own value only; limits are stored without sign; the
    turning velocity follows the driving velocity until it is set. *)
Theorem robot_setters : forall (r : robot RNum) (x : R) (s : String.string),
  (let r' := rb_setWidth RNum r x in rb_getWidth RNum r' = x /\ rb_getCovWidth RNum r' = rb_getCovWidth RNum r /\ rb_getCruiseVel RNum r' = rb_getCruiseVel RNum r /\
     rb_getTurnVel RNum r' = rb_getTurnVel RNum r /\ rb_getMaxCurv RNum r' = rb_getMaxCurv RNum r /\ rb_getMaxDiffCurv RNum r' = rb_getMaxDiffCurv RNum r /\ rb_getName RNum r' = rb_getName RNum r) /\
  (let r' := rb_setCovWidth RNum r x in rb_getWidth RNum r' = rb_getWidth RNum r /\ rb_getCovWidth RNum r' = x /\ rb_getCruiseVel RNum r' = rb_getCruiseVel RNum r /\
     rb_getTurnVel RNum r' = rb_getTurnVel RNum r /\ rb_getMaxCurv RNum r' = rb_getMaxCurv RNum r /\ rb_getMaxDiffCurv RNum r' = rb_getMaxDiffCurv RNum r /\ rb_getName RNum r' = rb_getName RNum r) /\
  (let r' := rb_setCruiseVel RNum r x in rb_getWidth RNum r' = rb_getWidth RNum r /\ rb_getCovWidth RNum r' = rb_getCovWidth RNum r /\ rb_getCruiseVel RNum r' = x /\
     (rb_turn_vel r = None -> rb_getTurnVel RNum r' = x) /\ (rb_turn_vel r <> None -> rb_getTurnVel RNum r' = rb_getTurnVel RNum r) /\
     rb_getMaxCurv RNum r' = rb_getMaxCurv RNum r /\ rb_getMaxDiffCurv RNum r' = rb_getMaxDiffCurv RNum r /\ rb_getName RNum r' = rb_getName RNum r) /\
  (let r' := rb_setTurnVel RNum r x in rb_getWidth RNum r' = rb_getWidth RNum r /\ rb_getCovWidth RNum r' = rb_getCovWidth RNum r /\ rb_getCruiseVel RNum r' = rb_getCruiseVel RNum r /\
     rb_getTurnVel RNum r' = x /\ rb_getMaxCurv RNum r' = rb_getMaxCurv RNum r /\ rb_getMaxDiffCurv RNum r' = rb_getMaxDiffCurv RNum r /\ rb_getName RNum r' = rb_getName RNum r) /\
  (let r' := rb_setMaxCurv RNum r x in rb_getWidth RNum r' = rb_getWidth RNum r /\ rb_getCovWidth RNum r' = rb_getCovWidth RNum r /\ rb_getCruiseVel RNum r' = rb_getCruiseVel RNum r /\
     rb_getTurnVel RNum r' = rb_getTurnVel RNum r /\ 0 <= rb_getMaxCurv RNum r' /\ (rb_getMaxCurv RNum r' = x \/ rb_getMaxCurv RNum r' = - x) /\
     rb_getMaxDiffCurv RNum r' = rb_getMaxDiffCurv RNum r /\ rb_getName RNum r' = rb_getName RNum r) /\
  (let r' := rb_setMaxDiffCurv RNum r x in rb_getWidth RNum r' = rb_getWidth RNum r /\ rb_getCovWidth RNum r' = rb_getCovWidth RNum r /\ rb_getCruiseVel RNum r' = rb_getCruiseVel RNum r /\
     rb_getTurnVel RNum r' = rb_getTurnVel RNum r /\ rb_getMaxCurv RNum r' = rb_getMaxCurv RNum r /\
     0 <= rb_getMaxDiffCurv RNum r' /\ (rb_getMaxDiffCurv RNum r' = x \/ rb_getMaxDiffCurv RNum r' = - x) /\ rb_getName RNum r' = rb_getName RNum r) /\
  (let r' := rb_setName RNum r s in rb_getName RNum r' = s /\ rb_getWidth RNum r' = rb_getWidth RNum r /\ rb_getCovWidth RNum r' = rb_getCovWidth RNum r /\ rb_getCruiseVel RNum r' = rb_getCruiseVel RNum r /\
     rb_getTurnVel RNum r' = rb_getTurnVel RNum r /\ rb_getMaxCurv RNum r' = rb_getMaxCurv RNum r /\ rb_getMaxDiffCurv RNum r' = rb_getMaxDiffCurv RNum r).
Proof.
  intros [n w c v k dk tv] x s.
  assert (A : forall y : R, Rabs y = y \/ Rabs y = - y) by (intro y; unfold Rabs; destruct (Rcase_abs y); auto).
  assert (Pos := Rabs_pos x).
  cbn -[Rabs]. repeat split; auto; try apply A; try (intros ->; reflexivity).
  intro H. destruct tv; [reflexivity|contradiction H; reflexivity].
Qed.
Print Assumptions robot_setters.

Example robot_setters_example : rb_getTurnVel RNum (rb_setCruiseVel RNum (rb_default RNum) 7) = 7 /\ rb_getTurnVel RNum (rb_setCruiseVel RNum (rb_setTurnVel RNum (rb_default RNum) 3) 7) = 3.
Proof. split; reflexivity. Qed.

(** C128.  A minimum turning radius read back after setting it differs by at most
    1e-7 (1 + (|r| + 1e-7)^2); the curvature limit is positive; only that limit changes. *)
Theorem robot_radius : forall (r : robot RNum) (x : R), let r' := rb_setMinTurningRadius RNum r x in
  Rabs (rb_getMinTurningRadius RNum r' - Rabs x) <= / 10000000 * (1 + (Rabs x + / 10000000) * (Rabs x + / 10000000)) /\
  0 < rb_getMaxCurv RNum r' /\ 0 < rb_getMinTurningRadius RNum r' /\
  (x <> 0 -> rb_getMaxCurv RNum r' < / Rabs x) /\
  rb_getWidth RNum r' = rb_getWidth RNum r /\ rb_getCovWidth RNum r' = rb_getCovWidth RNum r /\ rb_getCruiseVel RNum r' = rb_getCruiseVel RNum r /\
  rb_getTurnVel RNum r' = rb_getTurnVel RNum r /\ rb_getMaxDiffCurv RNum r' = rb_getMaxDiffCurv RNum r /\ rb_getName RNum r' = rb_getName RNum r.
Proof.
  intros r x r'.
  assert (E1 : rb_getMaxCurv RNum r' = 1 / (Rabs x + 1 / 10000000)) by reflexivity.
  assert (E2 : rb_getMinTurningRadius RNum r' = 1 / (1 / (Rabs x + 1 / 10000000) + 1 / 10000000)) by reflexivity.
  assert (Hx := Rabs_pos x). set (a := Rabs x) in *.
  assert (Ea : 0 < a + 1 / 10000000) by lra. assert (Ei : 0 < 1 / (a + 1 / 10000000)) by (apply Rdiv_lt_0_compat; lra).
  split; [|split; [rewrite E1; exact Ei|split; [rewrite E2; apply Rdiv_lt_0_compat; lra|split; [|repeat split]]]].
  - rewrite E2. set (q := a + 1 / 10000000) in *. set (e := / 10000000). assert (He : 0 < e) by (unfold e; lra).
    replace (1 / 10000000) with e by (unfold e; field). replace a with (q - e) by (unfold q, e; field). replace (q - e + e) with q by ring.
    assert (E : 1 / (1 / q + e) - (q - e) = e - e * (q * q) / (1 + e * q)). { field. split; [|lra]. nra. }
    assert (P : 0 < e * q) by nra.
    assert (B : 0 <= e * (q * q) / (1 + e * q) <= e * (q * q)).
    { split; [apply Rmult_le_pos; [nra|left; apply Rinv_0_lt_compat; lra]|].
      apply (Rmult_le_reg_r (1 + e * q)); [lra|]. unfold Rdiv. rewrite Rmult_assoc, Rinv_l by lra. assert (0 <= e * (q * q)) by nra. nra. }
    rewrite E. apply Rabs_le. lra.
  - intro Hn. rewrite E1. assert (0 < a) by (apply Rabs_pos_lt; auto). unfold Rdiv at 1. rewrite Rmult_1_l. apply Rinv_lt_contravar; [|lra]. apply Rmult_lt_0_compat; lra.
Qed.
Print Assumptions robot_radius.

(** The error is not small for large radii: of 10^7 about half is left. *)
Theorem robot_radius_refuted : exists (r : robot RNum) (x : R), 0 < x /\ rb_getMinTurningRadius RNum (rb_setMinTurningRadius RNum r x) < x / 2 + 1.
Proof.
  exists (rb_default RNum), 10000000. split; [lra|].
  change (1 / (1 / (Rabs 10000000 + 1 / 10000000) + 1 / 10000000) < 10000000 / 2 + 1). rewrite Rabs_right by lra.
  apply (Rmult_lt_reg_r (1 / (10000000 + 1 / 10000000) + 1 / 10000000)); [lra|]. unfold Rdiv at 1. rewrite Rmult_assoc, Rinv_l by lra. lra.
Qed.
Print Assumptions robot_radius_refuted.

Example robot_radius_example : Rabs (rb_getMinTurningRadius RNum (rb_setMinTurningRadius RNum (rb_default RNum) (-3)) - 3) <= / 100000.
Proof.
  destruct (robot_radius (rb_default RNum) (-3)) as [A _]. rewrite (Rabs_left (-3)) in A by lra. replace (- -3) with 3 in A by lra. eapply Rle_trans; [exact A|]. lra.
Qed.
