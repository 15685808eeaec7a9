(** The UTM zone of a longitude in double precision. *)
From Coq Require Import ZArith Bool Lia Reals Lra Psatz Floats SpecFloat FloatAxioms.
From Verif Require Import Outcome Codec_Spec Codec_Proofs Codec_Proofs3 FloatErr_Proofs FloatErr_Proofs3 Transform_Model2.
Local Open Scope R_scope.

Lemma floor_value x v : is_value x v -> exists z, float_floor x = Some z /\ IZR z <= v < IZR z + 1.
Proof.
  unfold is_value, float_floor. destruct (Prim2SF x) as [s|s| |s m e]; cbn [sf_value]; try contradiction.
  - intros ->. exists 0%Z. split; [reflexivity|lra].
  - intro V. set (a := if s then Z.neg m else Z.pos m).
    assert (V' : v = IZR a * pow2 e).
    { rewrite V. unfold a. destruct s; [replace (IZR (Z.neg m)) with (- IZR (Z.pos m)) by (rewrite <- opp_IZR; reflexivity)|]; ring. }
    eexists. split; [reflexivity|]. rewrite V'. destruct (Z.leb_spec 0 e) as [L|L].
    + rewrite mult_IZR, (p2_IZR e) by auto. lra.
    + assert (P : (0 < 2 ^ (- e))%Z) by (apply Z.pow_pos_nonneg; lia).
      pose proof (Z.mul_div_le a (2 ^ (- e)) P) as D1. pose proof (Z.mul_succ_div_gt a (2 ^ (- e)) P) as D2.
      apply IZR_le in D1. apply IZR_lt in D2. rewrite mult_IZR in D1, D2. rewrite succ_IZR in D2.
      assert (Q : IZR (2 ^ (- e)) * pow2 e = 1).
      { rewrite <- p2_IZR by lia. rewrite <- p2_add. replace (- e + e)%Z with 0%Z by lia. reflexivity. }
      pose proof (p2_pos e). set (q := IZR (a / 2 ^ (- e))) in *. set (t := IZR (2 ^ (- e))) in *. split.
      * replace q with (t * q * pow2 e) by (rewrite <- (Rmult_1_r q) at 2; rewrite <- Q; ring). nra.
      * replace (q + 1) with (t * (q + 1) * pow2 e) by (replace (q + 1) with ((q + 1) * (t * pow2 e)) at 2 by (rewrite Q; ring); ring). nra.
Qed.

(** A double next to -180 is not nearer than its last bit. *)
Lemma next_to_180 x X : is_value x X -> -180 < X -> pow2 (-47) <= X + 180.
Proof.
  intros V L. assert (P0 : pow2 (-47) <= 1) by (replace 1 with (pow2 0) by reflexivity; apply p2_le; lia).
  destruct (Rle_dec (-90) X) as [G|G]; [lra|]. unfold is_value in V. pose proof (Prim2SF_valid x) as W.
  destruct (Prim2SF x) as [s|s| |s m e]; cbn [sf_value] in V; try contradiction; [lra|].
  pose proof (p2_pos e) as Pe. assert (Pm : 0 < IZR (Z.pos m)) by (apply IZR_lt; lia).
  assert (PP : 0 < IZR (Z.pos m) * pow2 e) by (apply Rmult_lt_0_compat; auto).
  destruct s; [|lra]. apply valid_iff in W.
  assert (M53 : IZR (Z.pos m) <= pow2 53).
  { rewrite (p2_IZR 53) by lia. apply IZR_le. lia. }
  assert (E1 : (-47 <= e)%Z).
  { destruct (Z_le_gt_dec (-47) e) as [|Ge]; auto. exfalso.
    assert (A1 : pow2 e <= pow2 (-48)) by (apply p2_le; lia).
    assert (A2 : pow2 53 * pow2 (-48) = 32) by (rewrite <- p2_add; change (53 + -48)%Z with 5%Z; rewrite (p2_IZR 5) by lia; reflexivity).
    assert (IZR (Z.pos m) * pow2 e <= pow2 53 * pow2 (-48)) by (apply Rmult_le_compat; lra). lra. }
  assert (Q : pow2 e = IZR (2 ^ (e + 47)) * pow2 (-47)) by (rewrite <- p2_IZR by lia; rewrite <- p2_add; f_equal; lia).
  assert (U : IZR (2 ^ 47) * pow2 (-47) = 1) by (rewrite <- p2_IZR by lia; rewrite <- p2_add; reflexivity).
  set (K := (180 * 2 ^ 47 - Z.pos m * 2 ^ (e + 47))%Z).
  assert (KV : IZR K * pow2 (-47) = X + 180).
  { unfold K. rewrite minus_IZR, !mult_IZR, V. replace (X + 180) with (X + 180 * 1) by ring.
    transitivity (180 * (IZR (2 ^ 47) * pow2 (-47)) - IZR (Z.pos m) * (IZR (2 ^ (e + 47)) * pow2 (-47))); [ring|]. rewrite U, <- Q. ring. }
  pose proof (p2_pos (-47)) as P47. assert (KP : 0 < IZR K) by nra. apply lt_IZR in KP.
  assert (1 <= IZR K) by (apply IZR_le; lia). nra.
Qed.

Lemma six : is_value 6 6 /\ is_value 180 180.
Proof.
  assert (A : forall k, (0 <= k)%Z -> IZR (2 ^ k) * pow2 (- k) = 1) by (intros k H; rewrite <- p2_IZR by auto; rewrite <- p2_add; replace (k + - k)%Z with 0%Z by lia; reflexivity).
  split; unfold is_value.
  - replace (Prim2SF 6) with (S754_finite false 6755399441055744 (-50)) by (vm_compute; reflexivity). unfold sf_value.
    pose proof (A 50%Z ltac:(lia)) as B. change (2 ^ 50)%Z with 1125899906842624%Z in B. change (-50)%Z with (- (50))%Z. lra.
  - replace (Prim2SF 180) with (S754_finite false 6333186975989760 (-45)) by (vm_compute; reflexivity). unfold sf_value.
    pose proof (A 45%Z ltac:(lia)) as B. change (2 ^ 45)%Z with 35184372088832%Z in B. change (-45)%Z with (- (45))%Z. lra.
Qed.

Lemma e52_value : 4503599627370496 * pow2 (-52) = 1 /\ 9007199254740992 * pow2 (-53) = 1.
Proof.
  assert (A : forall k, (0 <= k)%Z -> IZR (2 ^ k) * pow2 (- k) = 1) by (intros k H; rewrite <- p2_IZR by auto; rewrite <- p2_add; replace (k + - k)%Z with 0%Z by lia; reflexivity).
  split; [exact (A 52%Z ltac:(lia))|exact (A 53%Z ltac:(lia))].
Qed.

(** C314, as far as it holds: the zone contains the longitude up to the 10^-12 th part of a degree. *)
Theorem utm_zone_float : forall x X, is_value x X -> -180 <= X <= 180 ->
  exists z, utm_zone_f x = Ok z /\ (1 <= z <= 61)%Z /\
    6 * (IZR z - 1) - 180 - / 1000000000000 <= X < 6 * IZR z - 180 + / 1000000000000.
Proof.
  intros x X V [L R]. destruct six as [V6 V180]. destruct e52_value as [U52 U53].
  assert (P1000 : 1000 <= pow2 1000) by (apply (Rle_trans _ (pow2 10)); [rewrite (p2_IZR 10) by lia; simpl; lra|apply p2_le; lia]).
  destruct (add_ok x 180 X 180 V V180) as (a & A1 & A2); [rewrite Rabs_right by lra; lra|].
  rewrite (Rabs_right (X + 180)) in A2 by lra. apply abs_le in A2.
  pose proof (p2_pos (-53)) as P53. assert (B0 : pow2 (-53) * (X + 180) <= pow2 (-53) * 360) by (apply Rmult_le_compat_l; lra).
  assert (B2 : - (pow2 (-53) * 360) <= a - (X + 180) <= pow2 (-53) * 360) by (split; lra).
  assert (B4 : pow2 (-53) * (X + 180) <= / 2 * (X + 180)) by (apply Rmult_le_compat_r; lra).
  assert (A0 : 0 <= a) by lra.
  assert (AZ : a = 0 \/ pow2 (-1000) <= Rabs (a / 6)).
  { destruct (Req_dec X (-180)) as [->|NX]; [left; lra|right].
    pose proof (next_to_180 x X V ltac:(lra)) as N.
    assert (pow2 (-51) = / 16 * pow2 (-47)).
    { change (-51)%Z with (-4 + -47)%Z. rewrite p2_add. f_equal. pose proof (p2_add 4 (-4)) as Q0. change (4 + -4)%Z with 0%Z in Q0.
      rewrite (p2_IZR 4) in Q0 by lia. change (2 ^ 4)%Z with 16%Z in Q0. unfold pow2 at 1 in Q0. cbn [powerRZ] in Q0. lra. }
    assert (pow2 (-1000) <= pow2 (-51)) by (apply p2_le; lia). pose proof (p2_pos (-47)).
    rewrite Rabs_right by lra. lra. }
  destruct (div_ok (x + 180) 6 a 6 A1 V6 ltac:(lra) AZ) as (b & B1 & B3); [rewrite Rabs_right by lra; lra|].
  rewrite (Rabs_right (a / 6)) in B3 by lra. apply abs_le in B3.
  assert (B5 : pow2 (-52) * (a / 6) <= pow2 (-52) * 61) by (apply Rmult_le_compat_l; [apply Rlt_le, p2_pos|lra]).
  assert (B6 : pow2 (-52) * (a / 6) <= / 2 * (a / 6)) by (apply Rmult_le_compat_r; lra).
  assert (b0 : 0 <= b) by lra.
  destruct (floor_value _ _ B1) as (z & Z1 & Z2 & Z3).
  exists (z + 1)%Z. unfold utm_zone_f. rewrite Z1.
  assert (z0 : (0 <= z)%Z). { assert (-1 < IZR z) by lra. apply lt_IZR in H. lia. }
  assert (z1 : (z <= 60)%Z). { assert (IZR z < 61) by lra. apply lt_IZR in H. lia. }
  replace ((0 <=? z + 1) && (z + 1 <? 2 ^ 64))%Z%bool with true by (symmetry; apply andb_true_iff; split; [apply Z.leb_le|apply Z.ltb_lt]; lia).
  split; [reflexivity|]. split; [lia|]. rewrite plus_IZR. split; lra.
Qed.
Print Assumptions utm_zone_float.

Example utm_zone_float_ex : exists x X, is_value x X /\ -180 <= X <= 180 /\ utm_zone_f x = Ok 32%Z.
Proof. exists 6%float, 6. split; [apply six|]. split; [lra|]. vm_compute. reflexivity. Qed.

(** C314 is refuted as stated: just west of Greenwich is not in the zone that begins there. *)
Theorem utm_zone_float_refuted : exists x X z, is_value x X /\ -180 < X < 180 /\ utm_zone_f x = Ok z /\
  ~ (6 * (IZR z - 1) - 180 <= X < 6 * IZR z - 180).
Proof.
  exists (-0x1p-60)%float, (- pow2 (-60)), 31%Z.
  assert (P : pow2 (-60) <= 1) by (replace 1 with (pow2 0) by reflexivity; apply p2_le; lia). pose proof (p2_pos (-60)) as P0.
  split.
  { unfold is_value. replace (Prim2SF (-0x1p-60)) with (S754_finite true 4503599627370496 (-112)) by (vm_compute; reflexivity). unfold sf_value.
    replace (-60)%Z with (52 + -112)%Z by lia. rewrite p2_add, (p2_IZR 52) by lia. change (2 ^ 52)%Z with 4503599627370496%Z. ring. }
  split; [lra|]. split; [vm_compute; reflexivity|]. lra.
Qed.
Print Assumptions utm_zone_float_refuted.
