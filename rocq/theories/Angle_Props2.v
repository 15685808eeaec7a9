(** How far from zero the continuity of angles is defined. *)
From Coq Require Import List Arith ZArith Lia Bool Reals Lra Psatz.
From Verif Require Import Outcome ListAux Num Point_Model Angle_Model Angle_Spec Angle_Proofs.
Import ListNotations.
Open Scope R_scope.

Lemma round_near x (k : Z) : Rabs (x - IZR k) < / 2 -> Rround x = k.
Proof.
  intro H. pose proof (round_spec x) as R0.
  assert (A : (-1 < Rround x - k < 1)%Z).
  { split; apply lt_IZR; rewrite minus_IZR; unfold Rabs in *; destruct (Rcase_abs (x - IZR k)), (Rcase_abs (x - IZR (Rround x))); lra. }
  lia.
Qed.

(** C61, the exact limits: with [k] the number of turns of the previous angle, the result
    is defined from 2^31 - 2 turns back to 2^31 - 2 turns ahead, and undefined beyond,
    where one of the candidates does not fit an int: also the one two turns back, that is
    never nearest.  At 2^31 - 1 turns ahead it depends on the angle. *)
Theorem angle_continuity_limits prev val (k : Z) : Rabs (prev / (2 * PI) - IZR k) < / 2 ->
  ((-2147483646 <= k <= 2147483646)%Z ->
     exists r, getAngContinuity prev val = Ok r /\ congruent r val /\ Rabs (r - prev) <= PI) /\
  ((k < -2147483646 \/ 2147483647 < k)%Z -> getAngContinuity prev val = UB) /\
  ((k = 2147483647)%Z -> 0 <= val < 2 * PI ->
     (val - (prev - IZR k * (2 * PI)) > PI -> getAngContinuity prev val = Ok (IZR (k - 1) * (2 * PI) + val)) /\
     (val - (prev - IZR k * (2 * PI)) <= PI -> getAngContinuity prev val = UB)).
Proof.
  intro H. pose proof (round_near _ _ H) as Ek. pose proof PI_RGT_0 as HP.
  assert (UBz : forall z, (z < -2147483648 \/ 2147483647 < z)%Z -> getNearVal z val = UB).
  { intros z Hz. unfold getNearVal, to_int.
    destruct (Z.leb_spec (-2147483648) z), (Z.leb_spec z 2147483647); simpl; auto; lia. }
  split; [intro Hk; apply angCont_ok; rewrite Ek; auto|]. split.
  - intro Hk. unfold getAngContinuity. rewrite Ek. cbn [angCont_loop].
    destruct (getNearVal (k + -2 + 1) val) as [a| | |] eqn:EA; cbn [bind];
      [|unfold getNearVal, to_int in EA; destruct (_ && _)%bool in EA; discriminate|auto
       |unfold getNearVal, to_int in EA; destruct (_ && _)%bool in EA; discriminate].
    destruct (Z_lt_ge_dec k (-2147483646)) as [L|G].
    + rewrite (UBz (k + -2)%Z) by lia. auto.
    + destruct (getNearVal (k + -2) val) as [b| | |] eqn:EB; cbn [bind];
        [|unfold getNearVal, to_int in EB; destruct (_ && _)%bool in EB; discriminate|auto
         |unfold getNearVal, to_int in EB; destruct (_ && _)%bool in EB; discriminate].
      replace (k + -1 + 1)%Z with k by lia. rewrite (UBz k) by lia. cbn [bind].
      destruct (Rlt_dec (Rabs (b - prev)) (Rabs (a - prev))) as [C|C]; auto. exfalso.
      unfold getNearVal, to_int in EA, EB. destruct (_ && _)%bool in EA; [|discriminate]. destruct (_ && _)%bool in EB; [|discriminate].
      cbn [bind] in EA, EB. injection EA as <-. injection EB as <-.
      pose proof (mod2_range val) as M. set (m := mod_2pi val) in *.
      assert (B : - PI < prev - IZR k * (2 * PI) < PI).
      { replace (prev - IZR k * (2 * PI)) with ((prev / (2 * PI) - IZR k) * (2 * PI)) by (field; lra).
        unfold Rabs in H; destruct (Rcase_abs (prev / (2 * PI) - IZR k)); split; nra. }
      rewrite !plus_IZR in C. unfold Rabs in C.
      destruct (Rcase_abs ((IZR k + IZR (-2)) * (2 * PI) + m - prev)), (Rcase_abs ((IZR k + IZR (-2) + 1) * (2 * PI) + m - prev)); lra.
  - intros Hk Hv.
    assert (B : - PI < prev - IZR k * (2 * PI) < PI).
    { replace (prev - IZR k * (2 * PI)) with ((prev / (2 * PI) - IZR k) * (2 * PI)) by (field; lra).
      unfold Rabs in H; destruct (Rcase_abs (prev / (2 * PI) - IZR k)); split; nra. }
    assert (Em : mod_2pi val = val) by (apply mod2_unique; auto; apply congruent_refl).
    assert (N : forall z, (-2147483648 <= z <= 2147483647)%Z -> getNearVal z val = Ok (IZR z * (2 * PI) + val)).
    { intros z Hz. unfold getNearVal. rewrite to_int_ok by auto. cbn [bind]. rewrite Em. auto. }
    unfold getAngContinuity. rewrite Ek. cbn [angCont_loop].
    replace (k + -2 + 1)%Z with (k - 1)%Z by lia. replace (k + -2)%Z with (k - 2)%Z by lia.
    replace (k + -1 + 1)%Z with k by lia. replace (k + -1)%Z with (k - 1)%Z by lia.
    replace (k + 0 + 1)%Z with (k + 1)%Z by lia.
    rewrite (N (k - 2)%Z), (N (k - 1)%Z), (N k) by lia. rewrite (UBz (k + 1)%Z) by lia. cbn [bind].
    rewrite (minus_IZR k 2), (minus_IZR k 1).
    set (t := IZR k * (2 * PI)) in *.
    replace ((IZR k - 2) * (2 * PI)) with (t - 4 * PI) by (unfold t; ring).
    replace ((IZR k - 1) * (2 * PI)) with (t - 2 * PI) by (unfold t; ring).
    destruct (Rlt_dec (Rabs (t - 4 * PI + val - prev)) (Rabs (t - 2 * PI + val - prev))) as [C|C].
    { exfalso. unfold Rabs in C. destruct (Rcase_abs (t - 4 * PI + val - prev)), (Rcase_abs (t - 2 * PI + val - prev)); lra. }
    split; intro D.
    + destruct (Rlt_dec (Rabs (t - 2 * PI + val - prev)) (Rabs (t + val - prev))) as [C1|C1]; auto.
      exfalso. unfold Rabs in C1. destruct (Rcase_abs (t - 2 * PI + val - prev)), (Rcase_abs (t + val - prev)); lra.
    + destruct (Rlt_dec (Rabs (t - 2 * PI + val - prev)) (Rabs (t + val - prev))) as [C1|C1]; auto.
      exfalso. unfold Rabs in C1. destruct (Rcase_abs (t - 2 * PI + val - prev)), (Rcase_abs (t + val - prev)); lra.
Qed.
Print Assumptions angle_continuity_limits.

Example angle_continuity_limits_ex :
  Rabs (-2147483647 * (2 * PI) / (2 * PI) - IZR (-2147483647)) < / 2 /\ (-2147483647 < -2147483646)%Z /\
  getAngContinuity (-2147483647 * (2 * PI)) 1 = UB.
Proof.
  pose proof PI_RGT_0.
  assert (A : Rabs (-2147483647 * (2 * PI) / (2 * PI) - IZR (-2147483647)) < / 2).
  { replace (-2147483647 * (2 * PI) / (2 * PI) - IZR (-2147483647)) with 0 by (field; lra). rewrite Rabs_R0; lra. }
  split; [exact A|]. split; [lia|].
  apply (proj1 (proj2 (angle_continuity_limits _ 1 _ A))). left; lia.
Qed.
