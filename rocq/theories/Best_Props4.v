(** The directions that are tried in double precision. *)
From Coq Require Import ZArith Bool Lia Reals Lra Psatz Floats SpecFloat FloatAxioms Uint63.
From Verif Require Import Outcome Num Point_Model Point_Props Angle_Model Codec_Spec Codec_Proofs Codec_Proofs3 FloatErr_Proofs FloatErr_Proofs3 Best_Model2 Best_Props3.
Local Open Scope R_scope.

Lemma int_value2 n : (0 <= n <= 2147483648)%Z -> exists N, is_value (float_of_Z n) N /\ Rabs (N - IZR n) <= pow2 (-53) * IZR n.
Proof.
  intro H. destruct n as [|p|p]; try lia.
  - exists 0. split; [unfold is_value; replace (Prim2SF (float_of_Z 0)) with (S754_zero false) by (vm_compute; reflexivity); reflexivity|].
    rewrite Rminus_0_r, Rabs_R0. lra.
  - cbn [float_of_Z]. unfold is_value. rewrite of_uint63_spec, of_Z_spec.
    rewrite Z.mod_small by (change wB with 9223372036854775808%Z; lia).
    assert (P : 0 < IZR (Z.pos p) <= 2147483648) by (split; [apply IZR_lt; lia|apply IZR_le; lia]).
    destruct (normalize_ok (Z.pos p) 0 false) as (y & Y1 & Y2); [lia| |].
    + change (pow2 0) with 1. rewrite Rmult_1_r, Rabs_right by lra.
      apply (Rle_trans _ (pow2 31)); [rewrite (p2_IZR 31) by lia; change (2 ^ 31)%Z with 2147483648%Z; lra|apply p2_le; lia].
    + change (pow2 0) with 1 in Y2. rewrite Rmult_1_r in Y2. rewrite (Rabs_right (IZR (Z.pos p))) in Y2 by lra.
      exists y. split; [exact Y1|exact Y2].
Qed.

(** C312: the angles that are tried are the multiples of the step up to rounding, in
    rising order and below the full turn. *)
Theorem angles_tried_float : forall step T G k, is_value two_pi_f T -> is_value step G -> 0 < G -> 1 <= T / G <= 2000000000 ->
  bf_count_f step = Ok k ->
  forall i, (Z.of_nat i < k)%Z -> exists a, is_value (bf_angle_f step i) a /\
    Rabs (a - INR i * G) <= pow2 (-51) * (INR i * G) /\ 0 <= a < T /\
    forall j b, (i < j)%nat -> (Z.of_nat j < k)%Z -> is_value (bf_angle_f step j) b -> a < b.
Proof.
  intros step T G k VT VS PS HQ HK. destruct small_pow as [B1 B2]. pose proof unit_52 as [U U3].
  assert (UNI : forall f a b, is_value f a -> is_value f b -> a = b).
  { intros f a b X Y. unfold is_value in *. destruct (Prim2SF f); cbn [sf_value] in *; try contradiction; congruence. }
  destruct two_pi_value as (T' & VT' & BT). assert (T' = T) by (apply (UNI two_pi_f); auto). subst T'. clear VT'.
  destruct (best_count_float step T G VT VS PS HQ) as (k' & K1 & K2 & K3 & K4). rewrite K1 in HK. injection HK as ->.
  set (q := T / G) in *. assert (QS : q * G = T) by (unfold q; field; lra).
  assert (SB : 6 <= G * 2000000000) by nra.
  assert (ST : G <= 7) by nra.
  set (u := pow2 (-52)) in *. assert (PU : 0 < u) by (unfold u; apply p2_pos).
  assert (UQ : u * q <= u * 2000000000) by (apply Rmult_le_compat_l; lra).
  assert (KB : (k <= 2147483647)%Z). { assert (IZR k < 2147483648) by lra. apply lt_IZR in H. lia. }
  assert (E51 : pow2 (-51) = 2 * u) by (unfold u; change (-51)%Z with (1 + -52)%Z; rewrite p2_add, p2_1; ring).
  assert (E53 : u = 2 * pow2 (-53)) by (unfold u; change (-52)%Z with (1 + -53)%Z; rewrite p2_add, p2_1; ring).
  set (v := pow2 (-53)) in *. assert (PV : 0 < v) by lra.
  assert (Step : forall i : nat, (Z.of_nat i < k)%Z -> exists a, is_value (bf_angle_f step i) a /\ Rabs (a - INR i * G) <= 2 * u * (INR i * G)).
  { intros i Hi. destruct (int_value2 (Z.of_nat i) ltac:(lia)) as (N & N1 & N2). rewrite <- INR_IZR_INZ in N2. fold v in N2.
    pose proof (pos_INR i) as Pi. apply abs_le in N2.
    assert (VI : 0 <= v * INR i <= / 4 * INR i) by (split; [apply Rmult_le_pos; lra|apply Rmult_le_compat_r; lra]).
    assert (N0 : 0 <= N) by lra. assert (NS : 0 <= N * G) by (apply Rmult_le_pos; lra).
    assert (IS : 0 <= INR i * G) by (apply Rmult_le_pos; lra).
    assert (IB : INR i <= 2147483648).
    { rewrite INR_IZR_INZ. apply IZR_le. lia. }
    assert (NB : N * G <= 4000000000 * 7) by (apply Rmult_le_compat; lra).
    assert (B3 : 28000000000 <= pow2 1000).
    { apply (Rle_trans _ (pow2 40)); [rewrite (p2_IZR 40) by lia; change (2 ^ 40)%Z with 1099511627776%Z; lra|apply p2_le; lia]. }
    destruct (mul_ok _ _ _ _ N1 VS) as (a & A1 & A2); [rewrite Rabs_right by lra; lra|].
    rewrite (Rabs_right (N * G)) in A2 by lra. exists a. split; [exact A1|].
    destruct i as [|i].
    - assert (Z0 : is_value (float_of_Z (Z.of_nat 0) * step)%float 0).
      { unfold is_value. rewrite FloatAxioms.mul_spec. replace (Prim2SF (float_of_Z (Z.of_nat 0))) with (S754_zero false) by (vm_compute; reflexivity).
        unfold is_value in VS. destruct (Prim2SF step); cbn [sf_value] in VS; try contradiction; reflexivity. }
      assert (a = 0) as -> by exact (UNI _ _ _ A1 Z0).
      simpl INR. rewrite Rmult_0_l, Rminus_0_r, Rabs_R0. lra.
    - assert (I1 : 1 <= INR (S i)) by (apply (le_INR 1); lia). set (I := INR (S i)) in *.
      assert (G0 : / 1000000000 <= N * G).
      { assert (3 / 4 * G <= N * G) by (apply Rmult_le_compat_r; lra). lra. }
      assert (M1 : pow2 (-1075) <= v * (N * G)).
      { change (-1075)%Z with (-53 + -1022)%Z. rewrite p2_add. fold v. apply Rmult_le_compat_l; [lra|].
        apply (Rle_trans _ u); [unfold u; apply p2_le; lia|lra]. }
      rewrite Rmax_left in A2 by exact M1. apply abs_le in A2.
      assert (D1 : (I - v * I) * G <= N * G) by (apply Rmult_le_compat_r; lra).
      assert (D2 : N * G <= (I + v * I) * G) by (apply Rmult_le_compat_r; lra).
      assert (D3 : v * (N * G) <= v * (2 * (I * G))) by (apply Rmult_le_compat_l; [lra|]; assert (N * G <= 2 * I * G) by (apply Rmult_le_compat_r; lra); lra).
      replace ((I - v * I) * G) with (I * G - v * (I * G)) in D1 by ring.
      replace ((I + v * I) * G) with (I * G + v * (I * G)) in D2 by ring.
      assert (0 <= v * (I * G)) by (apply Rmult_le_pos; lra).
      fold v in A2. apply Rabs_le. rewrite E53. split; lra. }
  intros i Hi. destruct (Step i Hi) as (a & A1 & A2). exists a. split; [exact A1|]. rewrite E51. split; [exact A2|].
  apply abs_le in A2. pose proof (pos_INR i) as Pi. assert (IS : 0 <= INR i * G) by (apply Rmult_le_pos; lra).
  assert (Bound : forall j : nat, (Z.of_nat j < k)%Z -> INR j * G <= T - G + u * T).
  { intros j Hj. assert (J : INR j <= q * (1 + u) - 1).
    { rewrite INR_IZR_INZ. assert (Z.of_nat j + 1 <= k)%Z as L by lia. apply IZR_le in L. rewrite plus_IZR in L. lra. }
    apply (Rle_trans _ ((q * (1 + u) - 1) * G)); [apply Rmult_le_compat_r; lra|]. rewrite <- QS. right. ring. }
  assert (Rel : forall j : nat, (Z.of_nat j < k)%Z -> 2 * u * (INR j * G) <= / 4 * G).
  { intros j Hj. specialize (Bound j Hj). assert (u * T <= u * 7) by (apply Rmult_le_compat_l; lra). assert (u * (INR j * G) <= u * 8) by (apply Rmult_le_compat_l; lra). lra. }
  pose proof (Rel i Hi) as Ri. pose proof (Bound i Hi) as Bi.
  split; [split; [|assert (u * T <= u * 7) by (apply Rmult_le_compat_l; lra); lra]|].
  - assert (2 * u * (INR i * G) <= 1 * (INR i * G)) by (apply Rmult_le_compat_r; lra). lra.
  - intros j b Hij Hj Vb. destruct (Step j Hj) as (b' & V1 & V2). assert (b' = b) by exact (UNI _ _ _ V1 Vb). subst b'.
    apply abs_le in V2. pose proof (Rel j Hj) as Rj.
    assert (INR i + 1 <= INR j) by (rewrite <- S_INR; apply le_INR; lia).
    assert ((INR i + 1) * G <= INR j * G) by (apply Rmult_le_compat_r; lra). lra.
Qed.
Print Assumptions angles_tried_float.

Example angles_tried_float_ex : exists T G, is_value two_pi_f T /\ is_value 2 G /\ 0 < G /\ 1 <= T / G <= 2000000000 /\
  bf_count_f 2 = Ok 3%Z /\ (Z.of_nat 2 < 3)%Z.
Proof.
  destruct best_count_float_ex as (T & G & H1 & H2 & H3 & H4). exists T, G. repeat split; auto; try lra. 
Qed.
