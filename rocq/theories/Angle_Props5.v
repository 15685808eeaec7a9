(** The difference of two angles in double precision. *)
From Coq Require Import ZArith Bool Lia Reals Lra Psatz Floats SpecFloat FloatAxioms.
From Verif Require Import Codec_Spec Codec_Proofs Codec_Proofs3 FloatErr_Proofs FloatErr_Proofs2 FloatErr_Proofs5 Angle_Model2 Angle_Model3 Angle_Props3.
Local Open Scope R_scope.

(** What is rounded to the nearest does not pass a number that fits. *)
Lemma fits_pos x : fits x -> 0 < x -> exists k, pow2 k <= x < pow2 (k + 1).
Proof.
  intros (q & e & E & _ & _) P. pose proof (p2_pos e) as Pe.
  assert (Pq : (0 < q)%Z). { apply lt_IZR. rewrite E in P. nra. }
  destruct (digits_bounds q Pq) as [[A1 A2] A3]. exists (Zdigits2 q - 1 + e)%Z.
  replace (Zdigits2 q - 1 + e + 1)%Z with (Zdigits2 q + e)%Z by lia.
  apply IZR_le in A1. apply IZR_lt in A2. rewrite <- p2_IZR in A1, A2 by lia. rewrite !p2_add, E. split; [apply Rmult_le_compat_r|apply Rmult_lt_compat_r]; lra.
Qed.

Lemma rounded_below z v y : fits z -> fits y -> 0 < y -> Rabs v <= y -> Rabs (z - v) <= pow2 (-53) * Rabs v -> z <= y.
Proof.
  intros FZ FY P B E. apply Rnot_lt_le. intro LT. destruct (fits_pos y FY P) as (k & K1 & K2).
  destruct (coarse y k FY K1) as (I & EI). destruct (coarse z k FZ ltac:(lra)) as (J & EJ).
  pose proof (p2_pos (k - 52)) as Pk. pose proof (p2_pos (-53)) as P53.
  assert (IJ : (I < J)%Z). { apply lt_IZR. rewrite EI, EJ in LT. apply Rmult_lt_reg_r in LT; auto. }
  assert (IJ1 : IZR I + 1 <= IZR J) by (rewrite <- plus_IZR; apply IZR_le; lia).
  assert (G : (IZR I + 1) * pow2 (k - 52) <= IZR J * pow2 (k - 52)) by (apply Rmult_le_compat_r; lra).
  assert (S1 : pow2 (-53) * Rabs v < pow2 (k - 52)).
  { replace (k - 52)%Z with (-53 + (k + 1))%Z by lia. rewrite p2_add. apply Rmult_lt_compat_l; lra. }
  apply abs_le in E. apply abs_le in B. lra.
Qed.

Lemma rounded_within z v y : fits z -> fits y -> 0 < y -> Rabs v <= y -> Rabs (z - v) <= pow2 (-53) * Rabs v -> Rabs z <= y.
Proof.
  intros FZ FY P B E. apply Rabs_le. split; [|exact (rounded_below z v y FZ FY P B E)].
  assert (- z <= y); [|lra]. apply (rounded_below (- z) (- v) y); auto.
  - destruct FZ as (q & e & -> & Q). exists (- q)%Z, e. rewrite opp_IZR. split; [ring|lia].
  - rewrite Rabs_Ropp. exact B.
  - rewrite Rabs_Ropp. replace (- z - - v) with (- (z - v)) by ring. rewrite Rabs_Ropp. exact E.
Qed.

Lemma pi_value : is_value float_pi (7074237752028440 * pow2 (-51)).
Proof. unfold is_value. replace (Prim2SF float_pi) with (S754_finite false 7074237752028440 (-51)) by (vm_compute; reflexivity). unfold sf_value. ring. Qed.

(** C317: the difference is between 0 and pi, and it is the distance to the nearest multiple
    of the full turn (all as doubles) up to rounding. *)
Theorem angle_diff_float : forall a b A B, is_value a A -> is_value b B -> Rabs (B - A) <= pow2 999 ->
  exists Z P, is_value (float_getAngleDiffAbs a b) Z /\ is_value float_pi P /\ 0 <= Z <= P /\
    (exists n, Rabs (Z - Rabs (B - A - IZR n * (2 * P))) <= pow2 (-53) * Rabs (B - A) + pow2 (-48)) /\
    (forall n, Z <= Rabs (B - A - IZR n * (2 * P)) + (pow2 (-53) * Rabs (B - A) + pow2 (-48))).
Proof.
  intros a b A B VA VB BD. set (D := B - A) in *. pose proof two_pi_value as VT. pose proof pi_value as VP. pose proof e53 as E53.
  set (P := 7074237752028440 * pow2 (-51)) in *. set (T := 7074237752028440 * pow2 (-50)) in *.
  assert (E51 : pow2 (-51) = 4 * pow2 (-53)) by (change (-51)%Z with (2 + -53)%Z; rewrite p2_add, (p2_IZR 2) by lia; reflexivity).
  assert (E50 : pow2 (-50) = 8 * pow2 (-53)) by (change (-50)%Z with (3 + -53)%Z; rewrite p2_add, (p2_IZR 3) by lia; reflexivity).
  assert (E52 : pow2 (-52) = 2 * pow2 (-53)) by (change (-52)%Z with (1 + -53)%Z; rewrite p2_add, p2_1; reflexivity).
  assert (E48 : pow2 (-48) = 32 * pow2 (-53)) by (change (-48)%Z with (5 + -53)%Z; rewrite p2_add, (p2_IZR 5) by lia; reflexivity).
  assert (TP : T = 2 * P) by (unfold T, P; lra). assert (HP : 3 < P < 4) by (unfold P; lra). pose proof (p2_pos (-53)) as P53.
  assert (P8 : 8 <= pow2 999) by (apply (Rle_trans _ (pow2 3)); [rewrite (p2_IZR 3) by lia; simpl; lra|apply p2_le; lia]).
  assert (P1000 : pow2 1000 = 2 * pow2 999) by (change 1000%Z with (1 + 999)%Z; rewrite p2_add, p2_1; reflexivity).
  destruct (sub_ok b a B A VB VA) as (d & D1 & D2); [fold D; lra|]. fold D in D2.
  destruct (mod_float (b - a) float_two_pi d T D1 VT ltac:(lra)) as (M & n & M1 & M2 & M3). fold (float_mod_2pi (b - a)) in M1.
  destruct (sub_ok _ _ M P M1 VP) as (u & U1 & U2); [apply Rabs_le; lra|].
  assert (BU : Rabs (M - P) <= P) by (apply Rabs_le; lra).
  pose proof (rounded_within u (M - P) P (value_fits _ _ U1) (value_fits _ _ VP) ltac:(lra) BU U2) as RU.
  pose proof (Rabs_pos u) as Pu. pose proof (abs_value _ _ U1) as U3.
  destruct (sub_ok _ _ P (Rabs u) VP U3) as (z & Z1 & Z2); [rewrite Rabs_right; lra|].
  assert (BW : Rabs (P - Rabs u) <= P) by (rewrite Rabs_right; lra).
  pose proof (rounded_below z (P - Rabs u) P (value_fits _ _ Z1) (value_fits _ _ VP) ltac:(lra) BW Z2) as RZ.
  assert (W1 : pow2 (-53) * Rabs (M - P) <= pow2 (-53) * 4) by (apply Rmult_le_compat_l; lra).
  assert (W2 : pow2 (-53) * Rabs (P - Rabs u) <= pow2 (-53) * 4) by (apply Rmult_le_compat_l; lra).
  assert (W3 : pow2 (-53) * Rabs (P - Rabs u) <= 1 * Rabs (P - Rabs u)) by (apply Rmult_le_compat_r; [apply Rabs_pos|lra]).
  rewrite (Rabs_right (P - Rabs u)) in W3 by lra. rewrite (Rabs_right (P - Rabs u)) in Z2 by lra. rewrite (Rabs_right (P - Rabs u)) in W2 by lra.
  exists z, P. split; [exact Z1|]. split; [exact VP|]. pose proof Z2 as Z2'. apply abs_le in Z2'. split; [lra|].
  assert (UM : Rabs (Rabs u - Rabs (M - P)) <= pow2 (-53) * 4) by (eapply Rle_trans; [apply Rabs_triang_inv2|]; lra).
  apply abs_le in UM. set (c := P - Rabs (M - P)).
  assert (ZC : - (pow2 (-53) * 8) <= z - c <= pow2 (-53) * 8) by (unfold c; lra).
  assert (W4 : pow2 (-52) * T <= pow2 (-53) * 16) by (rewrite E52, TP; nra).
  assert (MD : Rabs (M - (D - IZR n * T)) <= pow2 (-53) * Rabs D + pow2 (-53) * 16).
  { replace (M - (D - IZR n * T)) with (M - (d - IZR n * T) + (d - D)) by ring. eapply Rle_trans; [apply Rabs_triang|]. lra. }
  rewrite <- TP. split.
  - destruct (Rle_dec M P) as [L|G].
    + assert (CM : c = M) by (unfold c; rewrite Rabs_left1 by lra; ring). exists n.
      assert (Q : Rabs (Rabs M - Rabs (D - IZR n * T)) <= Rabs (M - (D - IZR n * T))) by apply Rabs_triang_inv2.
      rewrite (Rabs_right M) in Q by lra. apply Rabs_le. assert (Q' := Rle_trans _ _ _ Q MD). apply abs_le in Q'. lra.
    + assert (CM : c = T - M) by (unfold c; rewrite Rabs_right by lra; lra). exists (n + 1)%Z. rewrite plus_IZR.
      assert (Q : Rabs (Rabs (M - T) - Rabs (D - (IZR n + 1) * T)) <= Rabs (M - T - (D - (IZR n + 1) * T))) by apply Rabs_triang_inv2.
      replace (M - T - (D - (IZR n + 1) * T)) with (M - (D - IZR n * T)) in Q by ring.
      rewrite (Rabs_left (M - T)) in Q by lra. apply Rabs_le. assert (Q' := Rle_trans _ _ _ Q MD). apply abs_le in Q'. lra.
  - intro k. assert (CK : c <= Rabs (M - IZR (k - n) * T)).
    { assert (C1 : c <= M /\ c <= T - M) by (unfold c; destruct (Rle_dec M P); [rewrite Rabs_left1 by lra|rewrite Rabs_right by lra]; lra).
      destruct (Z_le_gt_dec (k - n) 0) as [L|G].
      - assert (IZR (k - n) <= 0) by (apply IZR_le; lia). rewrite Rabs_right; [|nra]. nra.
      - assert (1 <= IZR (k - n)) by (apply IZR_le; lia). rewrite Rabs_left1; [|nra]. nra. }
    assert (Q : Rabs (M - IZR (k - n) * T) <= Rabs (D - IZR k * T) + Rabs (M - (D - IZR n * T))).
    { rewrite minus_IZR. replace (M - (IZR k - IZR n) * T) with (D - IZR k * T + (M - (D - IZR n * T))) by ring. apply Rabs_triang. }
    lra.
Qed.
Print Assumptions angle_diff_float.

Example angle_diff_float_ex : exists a b A B, is_value a A /\ is_value b B /\ Rabs (B - A) <= pow2 999 /\
  float_getAngleDiffAbs a b = 2%float.
Proof.
  exists 3%float, 1%float, 3, 1.
  assert (Q : 2251799813685248 * pow2 (-51) = 1) by (change 2251799813685248 with (IZR (2 ^ 51)); rewrite <- p2_IZR by lia; rewrite <- p2_add; reflexivity).
  assert (Q2 : 4503599627370496 * pow2 (-52) = 1) by (change 4503599627370496 with (IZR (2 ^ 52)); rewrite <- p2_IZR by lia; rewrite <- p2_add; reflexivity).
  split; [|split; [|split]].
  - unfold is_value. replace (Prim2SF 3) with (S754_finite false 6755399441055744 (-51)) by (vm_compute; reflexivity). unfold sf_value. lra.
  - unfold is_value. replace (Prim2SF 1) with (S754_finite false 4503599627370496 (-52)) by (vm_compute; reflexivity). unfold sf_value. lra.
  - rewrite Rabs_left by lra. apply (Rle_trans _ (pow2 3)); [rewrite (p2_IZR 3) by lia; simpl; lra|apply p2_le; lia].
  - vm_compute. reflexivity.
Qed.

(** C318, as far as it holds: the order of the angles matters for the last bits only. *)
Theorem angle_diff_order_float : forall a b A B, is_value a A -> is_value b B -> Rabs (B - A) <= pow2 999 ->
  exists Z Z', is_value (float_getAngleDiffAbs a b) Z /\ is_value (float_getAngleDiffAbs b a) Z' /\
    Rabs (Z - Z') <= 2 * (pow2 (-53) * Rabs (B - A) + pow2 (-48)).
Proof.
  intros a b A B VA VB BD. assert (S : Rabs (A - B) = Rabs (B - A)) by apply Rabs_minus_sym.
  destruct (angle_diff_float a b A B VA VB BD) as (Z & P & Z1 & Z2 & _ & (n & Z4) & Z5).
  destruct (angle_diff_float b a B A VB VA ltac:(rewrite S; exact BD)) as (Z' & P' & Y1 & Y2 & _ & (m & Y4) & Y5).
  pose proof (value_det _ _ _ Y2 Z2) as ->. rewrite S in *. exists Z, Z'. split; [exact Z1|]. split; [exact Y1|].
  specialize (Z5 (- m)%Z). specialize (Y5 (- n)%Z). rewrite opp_IZR in Z5, Y5.
  replace (B - A - - IZR m * (2 * P)) with (- (A - B - IZR m * (2 * P))) in Z5 by ring. rewrite Rabs_Ropp in Z5.
  replace (A - B - - IZR n * (2 * P)) with (- (B - A - IZR n * (2 * P))) in Y5 by ring. rewrite Rabs_Ropp in Y5.
  apply abs_le in Z4. apply abs_le in Y4. apply Rabs_le. lra.
Qed.
Print Assumptions angle_diff_order_float.

(** C318 is refuted as stated. *)
Theorem angle_diff_order_float_refuted : exists a b A B Z Z', is_value a A /\ is_value b B /\ -4 < B < A /\ A = 0 /\
  is_value (float_getAngleDiffAbs a b) Z /\ is_value (float_getAngleDiffAbs b a) Z' /\ Z < Z'.
Proof.
  exists 0%float, (-0x1.f5cae3b5b278ap+1)%float, 0, (- (8827627667924874 * pow2 (-51))), (5320847836132006 * pow2 (-51)), (5320847836132008 * pow2 (-51)).
  assert (E51 : 2251799813685248 * pow2 (-51) = 1) by (change 2251799813685248 with (IZR (2 ^ 51)); rewrite <- p2_IZR by lia; rewrite <- p2_add; reflexivity).
  split; [|split; [|split; [lra|split; [reflexivity|split; [|split; [|lra]]]]]]; unfold is_value.
  - replace (Prim2SF 0) with (S754_zero false) by (vm_compute; reflexivity). reflexivity.
  - replace (Prim2SF (-0x1.f5cae3b5b278ap+1)) with (S754_finite true 8827627667924874 (-51)) by (vm_compute; reflexivity). unfold sf_value. ring.
  - replace (Prim2SF (float_getAngleDiffAbs 0 (-0x1.f5cae3b5b278ap+1))) with (S754_finite false 5320847836132006 (-51)) by (vm_compute; reflexivity). unfold sf_value. ring.
  - replace (Prim2SF (float_getAngleDiffAbs (-0x1.f5cae3b5b278ap+1) 0)) with (S754_finite false 5320847836132008 (-51)) by (vm_compute; reflexivity). unfold sf_value. ring.
Qed.
Print Assumptions angle_diff_order_float_refuted.
