(** Further theorems about paths (properties C42, C113, C176). *)
From Coq Require Import List Arith ZArith Lia Bool Reals Lra.
From Verif Require Import Outcome ListAux Num Point_Model Angle_Model Spline_Model Path_Model Path_Spec Path_Props.
Import ListNotations.
Open Scope R_scope.

(** C42: appending a path to itself is only defined when it is empty. *)
Theorem self_append : forall (N : Num) (p : list (pstate N)),
  (p = [] -> path_append N true p p = Ok []) /\ (p <> [] -> path_append N true p p = UB).
Proof. intros N [|s p]; split; intro H; try reflexivity; congruence. Qed.
Print Assumptions self_append.

Example self_append_ex : path_append RNum true demo demo = UB /\ path_append RNum false demo demo = Ok (demo ++ demo).
Proof. split; [apply self_append; discriminate|apply path_additive]. Qed.

(** C113: outside of the path, the setters are undefined (they check nothing). *)
Theorem path_setters_outside : forall (N : Num) (p : list (pstate N)) f i,
  ~ (0 <= i < Z.of_nat (length p))%Z -> path_set_at N f p i = UB.
Proof.
  intros N p f i H. unfold path_set_at. destruct (Z.ltb_spec i 0) as [L|L]; [reflexivity|]. unfold vec_index.
  destruct (nth_error p (Z.to_nat i)) eqn:E; [|reflexivity].
  assert ((Z.to_nat i < length p)%nat) by (apply nth_error_Some; congruence). lia.
Qed.
Print Assumptions path_setters_outside.

Example path_setters_outside_ex : ~ (0 <= -1 < Z.of_nat (length demo))%Z /\ ~ (0 <= 2 < Z.of_nat (length demo))%Z.
Proof. cbn. lia. Qed.

(** C176: where a state ends: [len] ahead when driving forward, [len] behind when driving
    backward, in the plane of height 0. *)
Theorem state_end : forall s : rstate,
  let e := ps_atEnd RNum cos sin s in
  (ps_dir s = DIR_FORWARD -> px e = px (ps_point s) + ps_len s * cos (ps_angle s) /\
     py e = py (ps_point s) + ps_len s * sin (ps_angle s)) /\
  (ps_dir s = DIR_BACKWARD -> px e = px (ps_point s) - ps_len s * cos (ps_angle s) /\
     py e = py (ps_point s) - ps_len s * sin (ps_angle s)) /\
  pz e = 0.
Proof.
  intro s. unfold ps_atEnd, p_getPointFromAngle. cbn [px py pz nmul nadd nofZ RNum].
  split; [|split; [|reflexivity]]; intro H; rewrite H; unfold DIR_FORWARD, DIR_BACKWARD; split; cbn; ring.
Qed.
Print Assumptions state_end.

(** C176: asking an empty path for a position gives the state a new PathState has:
    at the origin, driving forward along a swath with velocity 1. *)
Theorem path_at_empty : forall (N : Num) (cosf sinf : N -> N) d,
  let s := path_at N cosf sinf [] d in
  ps_point s = mkPoint (nofZ N 0) (nofZ N 0) (nofZ N 0) /\ ps_angle s = nofZ N 0 /\ ps_len s = nofZ N 0 /\
  ps_dir s = 1%Z /\ ps_type s = 1%Z /\ ps_vel s = nofZ N 1.
Proof.
  intros N cosf sinf d. unfold path_at. destruct (nltb N (path_length N []) d); [repeat split|].
  destruct (nltb N d (nofZ N 0)); repeat split.
Qed.
Print Assumptions path_at_empty.

Example state_end_ex : let s : rstate := mkPS (N := RNum) (mkPoint (N := RNum) 5 1 2) 0 3 (-1) 1 1 in
  ps_dir s = DIR_BACKWARD /\ ps_atEnd RNum cos sin s = mkPoint (N := RNum) 2 1 0.
Proof.
  split; [reflexivity|]. unfold ps_atEnd, p_getPointFromAngle. cbn -[IZR cos sin]. rewrite cos_0, sin_0. f_equal; cbn; ring.
Qed.
