(** How many directions are tried in double precision. *)
From Coq Require Import ZArith Bool Lia Reals Lra Psatz Floats SpecFloat FloatAxioms Uint63.
From Verif Require Import Outcome Num Point_Model Point_Props Angle_Model Codec_Spec Codec_Proofs Codec_Proofs3 FloatErr_Proofs FloatErr_Proofs3 Best_Model2.
Local Open Scope R_scope.

Lemma unit_52 : 4503599627370496 * pow2 (-52) = 1 /\ 9007199254740992 * pow2 (-53) = 1.
Proof.
  assert (A : forall k, (0 <= k)%Z -> IZR (2 ^ k) * pow2 (- k) = 1) by (intros k H; rewrite <- p2_IZR by auto; rewrite <- p2_add; replace (k + - k)%Z with 0%Z by lia; reflexivity).
  split; [exact (A 52%Z ltac:(lia))|exact (A 53%Z ltac:(lia))].
Qed.

(** The double nearest to the full turn. *)
Lemma two_pi_value : exists T, is_value two_pi_f T /\ 6 < T < 7.
Proof.
  exists (7074237752028440 * pow2 (-50)). unfold is_value.
  replace (Prim2SF two_pi_f) with (S754_finite false 7074237752028440 (-50)) by (vm_compute; reflexivity).
  pose proof unit_52 as [U _]. assert (pow2 (-50) = 4 * pow2 (-52)) by (change (-50)%Z with (2 + -52)%Z; rewrite p2_add, (p2_IZR 2) by lia; reflexivity).
  unfold sf_value. split; lra.
Qed.

Lemma int_value n : (1 <= n <= 1000000000)%Z -> exists N, is_value (float_of_Z n) N /\ Rabs (N - IZR n) <= pow2 (-53) * IZR n.
Proof.
  intro H. destruct n as [|p|p]; try lia. cbn [float_of_Z]. unfold is_value. rewrite of_uint63_spec, of_Z_spec.
  rewrite Z.mod_small by (change wB with 9223372036854775808%Z; lia).
  assert (P : 0 < IZR (Z.pos p) <= 1000000000) by (split; [apply IZR_lt; lia|apply IZR_le; lia]).
  destruct (normalize_ok (Z.pos p) 0 false) as (y & Y1 & Y2); [lia| |].
  - change (pow2 0) with 1. rewrite Rmult_1_r, Rabs_right by lra.
    apply (Rle_trans _ (pow2 30)); [rewrite (p2_IZR 30) by lia; change (2 ^ 30)%Z with 1073741824%Z; lra|apply p2_le; lia].
  - change (pow2 0) with 1 in Y2. rewrite Rmult_1_r in Y2. rewrite (Rabs_right (IZR (Z.pos p))) in Y2 by lra.
    exists y. split; [exact Y1|exact Y2].
Qed.

Lemma small_pow : pow2 (-1000) <= / 2 /\ 4000000000 <= pow2 1000.
Proof.
  split.
  - replace (/ 2) with (pow2 (-1)); [apply p2_le; lia|]. pose proof (p2_add 1 (-1)) as Q0. change (1 + -1)%Z with 0%Z in Q0.
    rewrite p2_1 in Q0. unfold pow2 at 1 in Q0. cbn [powerRZ] in Q0. lra.
  - apply (Rle_trans _ (pow2 32)); [rewrite (p2_IZR 32) by lia; change (2 ^ 32)%Z with 4294967296%Z; lra|apply p2_le; lia].
Qed.

(** The number of directions is that of the steps in a full turn, up to rounding. *)
Theorem best_count_float : forall step T S, is_value two_pi_f T -> is_value step S -> 0 < S -> 1 <= T / S <= 2000000000 ->
  exists k, bf_count_f step = Ok k /\ (0 <= k)%Z /\
    IZR k <= T / S * (1 + pow2 (-52)) /\ T / S * (1 - pow2 (-52)) < IZR k + 1.
Proof.
  intros step T S VT VS PS HQ. destruct small_pow as [B1 B2]. pose proof unit_52 as [U _].
  destruct (div_ok two_pi_f step T S VT VS ltac:(lra)) as (z & Z1 & Z2); [right; rewrite Rabs_right by lra; lra|rewrite Rabs_right by lra; lra|].
  rewrite (Rabs_right (T / S)) in Z2 by lra. apply abs_le in Z2.
  assert (E : pow2 (-52) * (T / S) <= / 2 * (T / S)) by (apply Rmult_le_compat_r; lra).
  unfold bf_count_f. pose proof (trunc_value (two_pi_f / step)) as TV.
  destruct (float_trunc (two_pi_f / step)) as [k|].
  - destruct TV as (v & V1 & V2 & _).
    assert (v = z) as -> by (unfold is_value in *; destruct (Prim2SF (two_pi_f / step)); cbn [sf_value] in *; try contradiction; congruence).
    specialize (V2 ltac:(lra)).
    assert (K0 : (0 <= k)%Z). { assert (-1 < IZR k) by lra. apply lt_IZR in H. lia. }
    assert (K1 : (k <= 2147483647)%Z).
    { assert (pow2 (-52) * (T / S) <= pow2 (-52) * 2000000000) by (apply Rmult_le_compat_l; lra).
      assert (IZR k < 2147483648) by lra. apply lt_IZR in H0. lia. }
    exists k. unfold to_int. replace ((-2147483648 <=? k) && (k <=? 2147483647))%Z%bool with true
      by (symmetry; apply andb_true_iff; split; apply Z.leb_le; lia).
    split; [reflexivity|]. split; [exact K0|]. split; lra.
  - exfalso. exact (TV z Z1).
Qed.
Print Assumptions best_count_float.

Example best_count_float_ex : exists T S, is_value two_pi_f T /\ is_value 2 S /\ 0 < S /\ 1 <= T / S <= 2000000000.
Proof.
  destruct two_pi_value as (T & V & B). exists T, 2. split; [exact V|]. split.
  - unfold is_value. replace (Prim2SF 2) with (S754_finite false 4503599627370496 (-51)) by (vm_compute; reflexivity).
    pose proof unit_52 as [U _]. assert (pow2 (-51) = 2 * pow2 (-52)) by (change (-51)%Z with (1 + -52)%Z; rewrite p2_add, p2_1; ring). unfold sf_value. lra.
  - split; lra.
Qed.

(** C235 and C312, as far as they hold: with the [n]-th part of the full turn as step,
    at most the last of the [n] directions is missed. *)
Theorem parts_count_float : forall n, (1 <= n <= 1000000000)%Z ->
  exists k, bf_count_f (two_pi_f / float_of_Z n) = Ok k /\ (k = n \/ k = n - 1)%Z.
Proof.
  intros n Hn. destruct small_pow as [B1 B2]. pose proof unit_52 as [U U3]. destruct two_pi_value as (T & VT & BT).
  destruct (int_value n Hn) as (N & VN & EN). apply abs_le in EN.
  assert (PN : 1 <= IZR n <= 1000000000) by (split; apply IZR_le; lia).
  assert (EN2 : pow2 (-53) * IZR n <= pow2 (-53) * 1000000000) by (apply Rmult_le_compat_l; lra).
  assert (PN' : / 2 <= N <= 1000000001) by lra.
  assert (TN : T / N * N = T) by (field; lra).
  assert (QB : / 1000000000 <= T / N <= 14) by (split; nra).
  assert (B3 : pow2 (-1000) <= / 1000000000).
  { apply (Rle_trans _ (pow2 (-52))); [apply p2_le; lia|lra]. }
  destruct (div_ok two_pi_f (float_of_Z n) T N VT VN ltac:(lra)) as (S & S1 & S2); [right; rewrite Rabs_right by lra; lra|rewrite Rabs_right by lra; lra|].
  rewrite (Rabs_right (T / N)) in S2 by lra. apply abs_le in S2. set (u := pow2 (-52)) in *.
  set (w := T / N) in *.
  assert (UW : 0 < u * w <= / 4 * w) by (split; [apply Rmult_lt_0_compat; lra|apply Rmult_le_compat_r; lra]).
  assert (PS : 0 < S) by lra.
  (* S * N against T *)
  assert (SN1 : (1 - u) * T <= S * N) by (rewrite <- TN; nra).
  assert (SN2 : S * N <= (1 + u) * T) by (rewrite <- TN; nra).
  set (q := T / S). assert (QS : q * S = T) by (unfold q; field; lra).
  assert (PQ : 0 < q) by (unfold q; apply Rdiv_lt_0_compat; lra).
  assert (Q1 : q * (1 - u) <= N).
  { apply (Rmult_le_reg_r T); [lra|]. replace (N * T) with (q * (S * N)) by (rewrite <- QS; ring).
    rewrite Rmult_assoc. apply Rmult_le_compat_l; lra. }
  assert (Q2 : N <= q * (1 + u)).
  { apply (Rmult_le_reg_r T); [lra|]. replace (N * T) with (q * (S * N)) by (rewrite <- QS; ring).
    rewrite Rmult_assoc. apply Rmult_le_compat_l; lra. }
  assert (Q3 : q <= 1000000002) by nra.
  assert (UQ : 0 < u * q <= u * 1000000002) by (split; [apply Rmult_lt_0_compat; lra|apply Rmult_le_compat_l; lra]).
  destruct (Rle_dec 1 q) as [G|G].
  - destruct (best_count_float (two_pi_f / float_of_Z n) T S VT S1 PS) as (k & K1 & K2 & K3 & K4); [fold q; lra|].
    fold q u in K3, K4. exists k. split; [exact K1|].
    assert (k < n + 1)%Z by (apply lt_IZR; rewrite plus_IZR; lra).
    assert (n - 2 < k)%Z by (apply lt_IZR; rewrite minus_IZR; lra). lia.
  - assert (N1 : (n = 1)%Z). { assert (IZR n < 2) by lra. apply lt_IZR in H. lia. } subst n.
    exists 1%Z. split; [vm_compute; reflexivity|left; reflexivity].
Qed.
Print Assumptions parts_count_float.

(** Both happen. *)
Example parts_count_float_ex : bf_count_f (two_pi_f / float_of_Z 24) = Ok 24%Z /\ bf_count_f (two_pi_f / float_of_Z 25) = Ok 24%Z.
Proof. split; vm_compute; reflexivity. Qed.
