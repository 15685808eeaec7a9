(** Findings that only show in double precision. *)
From Coq Require Import List ZArith Bool Reals Lra Floats.
From Verif Require Import Num Point_Model Angle_Spec Codec_Spec.
Import ListNotations.
Open Scope R_scope.

(** The numbers of a point of doubles. *)
Definition value_pt (p : point FNum) (r : pt) : Prop := is_value (px p) (px r) /\ is_value (py p) (py r) /\ is_value (pz p) (pz r).

(** The corners of a square of 1 m near x = 500000.1, y = 4600000.1. *)
Definition utm_a : point FNum := mkPoint (N := FNum) 0x1.e848066666666p+18%float 0x1.18c3006666666p+22%float 0%float.
Definition utm_b : point FNum := mkPoint (N := FNum) 0x1.e848466666666p+18%float 0x1.18c3046666666p+22%float 0%float.
Definition utm_c : point FNum := mkPoint (N := FNum) 0x1.e848466666666p+18%float 0x1.18c3006666666p+22%float 0%float.
Definition utm_d : point FNum := mkPoint (N := FNum) 0x1.e848066666666p+18%float 0x1.18c3046666666p+22%float 0%float.

Lemma pow34 : pow2 (-34) = / 17179869184.
Proof. unfold pow2. cbn [powerRZ]. rewrite (pow_IZR 2 (Pos.to_nat 34)). f_equal. Qed.
Lemma pow30 : pow2 (-30) = / 1073741824.
Proof. unfold pow2. cbn [powerRZ]. rewrite (pow_IZR 2 (Pos.to_nat 30)). f_equal. Qed.

(** The two diagonals meet in the middle of the square; intersectionOfLines is off by more
    than a tenth of a millimetre, a thousand times the tolerance of operator==. *)
Theorem intersection_utm_refuted : exists (a b c d : point FNum) (A B C D : pt),
  value_pt a A /\ value_pt b B /\ value_pt c C /\ value_pt d D /\
  px B - px A = 1 /\ py B - py A = 1 /\ px C = px B /\ py C = py A /\ px D = px A /\ py D = py B /\
  exists Q, value_pt (p_intersectionOfLines FNum a b c d) Q /\
    / 10000 < Rabs (px Q - (px A + px B) / 2) /\ / 10000 < Rabs (py Q - (py A + py B) / 2).
Proof.
  pose (x0 := 1 * IZR 8589936309986918 * pow2 (-34)). pose (x1 := 1 * IZR 8589953489856102 * pow2 (-34)).
  pose (y0 := 1 * IZR 4939212497774182 * pow2 (-30)). pose (y1 := 1 * IZR 4939213571516006 * pow2 (-30)).
  exists utm_a, utm_b, utm_c, utm_d, (mkPoint (N := RNum) x0 y0 0), (mkPoint (N := RNum) x1 y1 0), (mkPoint (N := RNum) x1 y0 0), (mkPoint (N := RNum) x0 y1 0).
  assert (V : forall f v x, Prim2SF f = v -> sf_value v x -> is_value f x) by (intros f v x E H; unfold is_value; now rewrite E).
  assert (X0 : is_value 0x1.e848066666666p+18%float x0) by (apply V with (S754_finite false 8589936309986918 (-34)); [vm_compute; reflexivity|reflexivity]).
  assert (X1 : is_value 0x1.e848466666666p+18%float x1) by (apply V with (S754_finite false 8589953489856102 (-34)); [vm_compute; reflexivity|reflexivity]).
  assert (Y0 : is_value 0x1.18c3006666666p+22%float y0) by (apply V with (S754_finite false 4939212497774182 (-30)); [vm_compute; reflexivity|reflexivity]).
  assert (Y1 : is_value 0x1.18c3046666666p+22%float y1) by (apply V with (S754_finite false 4939213571516006 (-30)); [vm_compute; reflexivity|reflexivity]).
  assert (Z0 : is_value 0%float 0) by (apply V with (S754_zero false); [vm_compute; reflexivity|reflexivity]).
  split; [|split; [|split; [|split]]]; try (split; [|split]; assumption).
  assert (HX : x1 - x0 = 1) by (unfold x1, x0; rewrite pow34; lra).
  assert (HY : y1 - y0 = 1) by (unfold y1, y0; rewrite pow30; lra).
  split; [exact HX|]. split; [exact HY|]. do 4 (split; [reflexivity|]).
  exists (mkPoint (N := RNum) (1 * IZR 8589944897404928 * pow2 (-34)) (1 * IZR 4939213034487808 * pow2 (-30)) 0). split; [|split].
  - unfold value_pt. cbn [px py pz]. split; [|split].
    + apply V with (S754_finite false 8589944897404928 (-34)); [vm_compute; reflexivity|reflexivity].
    + apply V with (S754_finite false 4939213034487808 (-30)); [vm_compute; reflexivity|reflexivity].
    + apply V with (S754_zero false); [vm_compute; reflexivity|reflexivity].
  - cbn [px]. unfold x0, x1. rewrite pow34. rewrite Rabs_left; lra.
  - cbn [py]. unfold y0, y1. rewrite pow30. rewrite Rabs_left; lra.
Qed.
Print Assumptions intersection_utm_refuted.

(** The number of directions BruteForce tries, before it is cut off to an int
    (src/fields2cover/swath_generator/brute_force.cpp:28-29). *)
Definition bf_quotient (step : float) : float := (0x1.921fb54442d18p+2 / step)%float.

(** The default step, boost's degree (include/fields2cover/swath_generator/brute_force.h:29),
    gives 360 directions in double precision, too. *)
Theorem default_directions : bf_quotient 0x1.1df46a2529d39p-6%float = 360%float.
Proof. vm_compute. reflexivity. Qed.

(** A hundredth of a turn gives fewer than a hundred directions. *)
Theorem directions_lost_refuted : exists n : Z, (0 < n)%Z /\
  PrimFloat.ltb (bf_quotient (0x1.921fb54442d18p+2 / float_of_Z n)%float) (float_of_Z n) = true.
Proof. exists 100%Z. split; [reflexivity|]. vm_compute. reflexivity. Qed.
Print Assumptions default_directions.
Print Assumptions directions_lost_refuted.
