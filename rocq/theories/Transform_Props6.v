(** The UTM zone of longitudes west of the date line, in double precision. *)
From Coq Require Import ZArith Bool Lia Reals Lra Psatz Floats SpecFloat FloatAxioms.
From Verif Require Import Outcome Codec_Spec Codec_Proofs Codec_Proofs3 FloatErr_Proofs FloatErr_Proofs3 Transform_Model2 Transform_Props5.
Local Open Scope R_scope.

Lemma west_quotient x X : is_value x X -> - 1000000000 <= X <= -180 - / 1000 ->
  exists b, is_value ((x + 180) / 6) b /\ Rabs (b - (X + 180) / 6) <= 2 * pow2 (-52) * Rabs ((X + 180) / 6).
Proof.
  intros V [L R]. destruct six as [V6 V180]. destruct e52_value as [U52 U53].
  assert (P1000 : 1000000000 <= pow2 1000) by (apply (Rle_trans _ (pow2 30)); [rewrite (p2_IZR 30) by lia; change (2 ^ 30)%Z with 1073741824%Z; lra|apply p2_le; lia]).
  destruct (add_ok x 180 X 180 V V180) as (a & A1 & A2); [rewrite Rabs_left by lra; lra|].
  rewrite (Rabs_left (X + 180)) in A2 by lra. apply abs_le in A2.
  assert (E0 : pow2 (-53) * - (X + 180) <= / 100000 * - (X + 180)) by (apply Rmult_le_compat_r; lra).
  assert (AN : a < 0 /\ - 2000000000 <= a) by lra.
  assert (P20 : pow2 (-1000) <= / 1048576).
  { apply (Rle_trans _ (pow2 (-20))); [apply p2_le; lia|]. assert (1048576 * pow2 (-20) = 1) by (change 1048576 with (IZR (2 ^ 20)); rewrite <- p2_IZR by lia; rewrite <- p2_add; reflexivity). lra. }
  destruct (div_ok (x + 180) 6 a 6 A1 V6 ltac:(lra)) as (b & B1 & B3).
  - right. rewrite Rabs_left by lra. lra.
  - rewrite Rabs_left by lra. lra.
  - exists b. split; [exact B1|]. rewrite (Rabs_left (a / 6)) in B3 by lra. rewrite (Rabs_left ((X + 180) / 6)) by lra. apply abs_le in B3. apply Rabs_le.
    assert (E : pow2 (-52) * - (a / 6) <= pow2 (-52) * (- (X + 180) / 6 * (5 / 4))).
    { apply Rmult_le_compat_l; [apply Rlt_le, p2_pos|]. lra. }
    assert (E2 : pow2 (-52) = 2 * pow2 (-53)) by lra. rewrite E2 in B3, E |- *. split; lra.
Qed.

(** More than six degrees west of the date line the conversion to an unsigned number is undefined. *)
Theorem utm_zone_west_undefined : forall x X, is_value x X -> - 1000000000 <= X <= -186 - / 1000 -> utm_zone_f x = UB.
Proof.
  intros x X V B. destruct e52_value as [U52 U53]. destruct (west_quotient x X V ltac:(lra)) as (b & B1 & B2).
  rewrite (Rabs_left ((X + 180) / 6)) in B2 by lra. apply abs_le in B2.
  assert (E0 : pow2 (-52) * - ((X + 180) / 6) <= / 1000000000000 * - ((X + 180) / 6)) by (apply Rmult_le_compat_r; lra).
  destruct (floor_value _ _ B1) as (z & Z1 & Z2 & Z3). unfold utm_zone_f. rewrite Z1.
  assert (z < -1)%Z by (apply lt_IZR; lra).
  replace (0 <=? z + 1)%Z with false by (symmetry; apply Z.leb_gt; lia). reflexivity.
Qed.
Print Assumptions utm_zone_west_undefined.

(** Up to there it is zone 0, which does not exist. *)
Theorem utm_zone_west_zero : forall x X, is_value x X -> - 186 + / 1000 <= X <= -180 - / 1000 -> utm_zone_f x = Ok 0%Z.
Proof.
  intros x X V B. destruct e52_value as [U52 U53]. destruct (west_quotient x X V ltac:(lra)) as (b & B1 & B2).
  rewrite (Rabs_left ((X + 180) / 6)) in B2 by lra. apply abs_le in B2.
  assert (E0 : pow2 (-52) * - ((X + 180) / 6) <= / 1000000000000 * - ((X + 180) / 6)) by (apply Rmult_le_compat_r; lra).
  destruct (floor_value _ _ B1) as (z & Z1 & Z2 & Z3). unfold utm_zone_f. rewrite Z1.
  assert (z < 0)%Z by (apply lt_IZR; lra). assert (-2 < z)%Z by (apply lt_IZR; lra).
  replace z with (-1)%Z by lia. reflexivity.
Qed.
Print Assumptions utm_zone_west_zero.

Example utm_zone_west_ex : exists x X y Y, is_value x X /\ - 1000000000 <= X <= -186 - / 1000 /\ is_value y Y /\ - 186 + / 1000 <= Y <= -180 - / 1000.
Proof.
  exists (-256)%float, (-256), (-184)%float, (-184).
  assert (A : forall k, (0 <= k)%Z -> IZR (2 ^ k) * pow2 (- k) = 1) by (intros k H; rewrite <- p2_IZR by auto; rewrite <- p2_add; replace (k + - k)%Z with 0%Z by lia; reflexivity).
  split; [|split; [lra|split; [|lra]]]; unfold is_value.
  - replace (Prim2SF (-256)) with (S754_finite true 4503599627370496 (-44)) by (vm_compute; reflexivity). unfold sf_value.
    pose proof (A 44%Z ltac:(lia)) as B. change (2 ^ 44)%Z with 17592186044416%Z in B. change (-44)%Z with (- (44))%Z. lra.
  - replace (Prim2SF (-184)) with (S754_finite true 6473924464345088 (-45)) by (vm_compute; reflexivity). unfold sf_value.
    pose proof (A 45%Z ltac:(lia)) as B. change (2 ^ 45)%Z with 35184372088832%Z in B. change (-45)%Z with (- (45))%Z. lra.
Qed.
