(** Quotients of doubles. *)
From Coq Require Import ZArith Bool Lia Reals Lra Psatz Floats SpecFloat FloatAxioms Zpower List.
From Verif Require Import Codec_Spec Codec_Proofs Codec_Proofs3 FloatErr_Proofs.
Local Open Scope R_scope.

Lemma shr_1_m x : (0 <= shr_m x)%Z -> shr_m (shr_1 x) = (shr_m x / 2)%Z.
Proof.
  destruct x as [m r s]. cbn [shr_m]. intro H. destruct m as [|[m|m|]|m]; cbn [shr_1 shr_m]; try reflexivity; try lia.
  - rewrite Pos2Z.inj_xI. apply (Z.div_unique _ 2 _ 1); lia.
  - rewrite Pos2Z.inj_xO. apply (Z.div_unique _ 2 _ 0); lia.
Qed.

Lemma shr_iter_m n : forall x, (0 <= shr_m x)%Z -> shr_m (iter_pos shr_1 n x) = (shr_m x / 2 ^ Zpos n)%Z /\ (0 <= shr_m (iter_pos shr_1 n x))%Z.
Proof.
  assert (S1 : forall x, (0 <= shr_m x)%Z -> (0 <= shr_m (shr_1 x))%Z) by (intros x H; rewrite shr_1_m by auto; apply Z.div_pos; lia).
  induction n as [n IH|n IH|]; intros x H; cbn [iter_pos].
  - destruct (IH (shr_1 x) (S1 x H)) as [A1 A2]. destruct (IH _ A2) as [B1 B2]. split; [|exact B2].
    rewrite B1, A1, shr_1_m by auto. rewrite !Z.div_div by (try lia; try (apply Z.pow_pos_nonneg; lia); try (apply Z.pow_nonzero; lia)).
    f_equal. replace (Z.pos n~1) with (1 + Z.pos n + Z.pos n)%Z by lia. rewrite !Z.pow_add_r by lia. lia.
  - destruct (IH x H) as [A1 A2]. destruct (IH _ A2) as [B1 B2]. split; [|exact B2].
    rewrite B1, A1. rewrite !Z.div_div by (try lia; try (apply Z.pow_pos_nonneg; lia); try (apply Z.pow_nonzero; lia)).
    f_equal. replace (Z.pos n~0) with (Z.pos n + Z.pos n)%Z by lia. rewrite !Z.pow_add_r by lia. lia.
  - split; [apply shr_1_m; auto|apply S1; auto].
Qed.

(** Rounding a number between [M * 2^e] and [(M + 1) * 2^e], at whatever place: one unit of the last bit. *)
Lemma round_aux_weak sx M e l X : (0 < M)%Z -> (e <= fexp prec emax (Zdigits2 M + e))%Z ->
  IZR M * pow2 e <= X < IZR (M + 1) * pow2 e -> pow2 (-1000) <= X <= pow2 1000 ->
  exists y, sf_value (binary_round_aux prec emax sx M e l) y /\ Rabs (y - sgn sx * X) <= pow2 (-52) * X.
Proof.
  intros HM HE [X1 X2] [X3 X4]. unfold binary_round_aux, shr_fexp.
  destruct (digits_bounds M HM) as [[D1 D2] D3]. set (d := Zdigits2 M) in *.
  set (E := fexp prec emax (d + e)) in *.
  assert (EV0 : E = Z.max (d + e - 53) (-1074)) by reflexivity.
  pose proof (p2_pos e) as Pe.
  assert (DE : (d - 1 + e <= 1000)%Z).
  { destruct (Z_le_gt_dec (d - 1 + e) 1000); auto. exfalso.
    assert (pow2 (1000 + 1) <= pow2 (d - 1 + e)) by (apply p2_le; lia). rewrite p2_add, p2_1 in H. pose proof (p2_pos 1000).
    rewrite p2_add, (p2_IZR (d - 1)) in H by lia. apply IZR_le in D1. nra. }
  assert (DL : (-1000 < d + e)%Z).
  { destruct (Z_lt_ge_dec (-1000) (d + e)); auto. exfalso.
    assert (pow2 (d + e) <= pow2 (-1000)) by (apply p2_le; lia). rewrite p2_add, (p2_IZR d) in H by lia.
    assert (M + 1 <= 2 ^ d)%Z as Q by lia. apply IZR_le in Q. nra. }
  assert (EV : E = (d + e - 53)%Z) by lia. clear EV0.
  set (x0 := shr_record_of_loc M l).
  assert (X0 : shr_m x0 = M) by (unfold x0; destruct l as [|[]]; reflexivity).
  assert (SH : exists x, shr x0 e (E - e) = (x, E) /\ shr_m x = (M / 2 ^ (E - e))%Z).
  { destruct (E - e)%Z as [|p|p] eqn:Ep; cbn [shr].
    - exists x0. split; [f_equal; lia|]. rewrite X0. change (2 ^ 0)%Z with 1%Z. rewrite Z.div_1_r. reflexivity.
    - exists (iter_pos shr_1 p x0). split; [f_equal; lia|]. rewrite <- X0. apply shr_iter_m. lia.
    - lia. }
  destruct SH as (x & -> & SX). set (p := (E - e)%Z) in *. assert (P0 : (0 < 2 ^ p)%Z) by (apply Z.pow_pos_nonneg; lia).
  set (m := shr_m x) in *.
  assert (ML : (2 ^ 52 <= m < 2 ^ 53)%Z).
  { rewrite SX. split.
    - apply Z.div_le_lower_bound; auto. rewrite <- Z.pow_add_r by lia. eapply Z.le_trans; [|exact D1]. apply Z.pow_le_mono_r; lia.
    - apply Z.div_lt_upper_bound; auto. rewrite <- Z.pow_add_r by lia. eapply Z.lt_le_trans; [exact D2|]. apply Z.pow_le_mono_r; lia. }
  set (N := round_nearest_even m (loc_of_shr_record x)) in *.
  assert (NM : N = m \/ N = (m + 1)%Z).
  { unfold N, round_nearest_even. destruct (loc_of_shr_record x) as [|[]]; auto. destruct (Z.even m); auto. }
  assert (V : exists y, sf_value (let '(mrs'', e'') := shr {| shr_m := N; shr_r := false; shr_s := false |} E (fexp prec emax (Zdigits2 N + E) - E) in
      match shr_m mrs'' with
      | Z0 => S754_zero sx
      | Zpos m => if (e'' <=? emax - prec)%Z then S754_finite sx m e'' else S754_infinity sx
      | Zneg _ => S754_nan
      end) y /\ y = sgn sx * (IZR N * pow2 E)).
  { destruct (digits_bounds N ltac:(lia)) as [[B1 B2] B3]. set (dn := Zdigits2 N) in *.
    destruct (Z.eq_dec N (2 ^ 53)) as [EN|NN].
    + assert (dn = 54%Z). { unfold dn. rewrite EN. reflexivity. }
      assert (F : (fexp prec emax (dn + E) - E = 1)%Z) by (unfold fexp, emin, prec, emax; lia).
      rewrite F. cbn [shr iter_pos shr_1]. rewrite EN. cbn [shr_m shr_1].
      change (2 ^ 53)%Z with (Zpos 9007199254740992). cbn [shr_1 shr_m].
      replace (E + 1 <=? emax - prec)%Z with true by (symmetry; apply Z.leb_le; unfold emax, prec; lia).
      eexists. split; [reflexivity|]. rewrite p2_add, p2_1.
      change 9007199254740992%positive with (2 * 4503599627370496)%positive. rewrite Pos2Z.inj_mul, mult_IZR. unfold sgn. ring.
    + assert (dn <= 53)%Z.
      { destruct (Z_le_gt_dec dn 53); auto. exfalso. assert (2 ^ 53 <= 2 ^ (dn - 1))%Z by (apply Z.pow_le_mono_r; lia). lia. }
      assert (F : (fexp prec emax (dn + E) - E <= 0)%Z) by (unfold fexp, emin, prec, emax; lia).
      assert (T : shr {| shr_m := N; shr_r := false; shr_s := false |} E (fexp prec emax (dn + E) - E) = ({| shr_m := N; shr_r := false; shr_s := false |}, E))
        by (destruct (fexp prec emax (dn + E) - E)%Z; auto; lia).
      rewrite T. cbn [shr_m]. destruct N as [|n|n] eqn:HN; try lia.
      replace (E <=? emax - prec)%Z with true by (symmetry; apply Z.leb_le; unfold emax, prec; lia).
      eexists. split; [reflexivity|]. unfold sgn. ring. }
  destruct V as (y & V1 & V2). exists y. split; [exact V1|].
  assert (PE : pow2 E = IZR (2 ^ p) * pow2 e) by (rewrite <- p2_IZR by lia; rewrite <- p2_add; f_equal; lia).
  assert (PP : 0 < pow2 E) by apply p2_pos.
  assert (L1 : IZR m * pow2 E <= X).
  { eapply Rle_trans; [|exact X1]. rewrite PE, <- Rmult_assoc, <- mult_IZR. apply Rmult_le_compat_r; [lra|]. apply IZR_le.
    rewrite SX, Z.mul_comm. apply Z.mul_div_le. auto. }
  assert (L2 : X <= (IZR m + 1) * pow2 E).
  { apply Rlt_le. eapply Rlt_le_trans; [exact X2|]. rewrite PE, <- Rmult_assoc, <- plus_IZR, <- mult_IZR. apply Rmult_le_compat_r; [lra|].
    apply IZR_le. rewrite SX. pose proof (Z.mul_succ_div_gt M (2 ^ p) P0). lia. }
  assert (B : Rabs (IZR N * pow2 E - X) <= pow2 E).
  { apply Rabs_le. destruct NM as [-> | ->]; [|rewrite plus_IZR]; split; nra. }
  rewrite V2. replace (sgn sx * (IZR N * pow2 E) - sgn sx * X) with (sgn sx * (IZR N * pow2 E - X)) by ring.
  rewrite Rabs_mult. replace (Rabs (sgn sx)) with 1 by (unfold sgn; destruct sx; unfold Rabs; destruct (Rcase_abs _); lra).
  rewrite Rmult_1_l. eapply Rle_trans; [exact B|].
  assert (pow2 E = pow2 (-52) * (pow2 (d - 1) * pow2 e)) by (rewrite <- !p2_add; f_equal; lia).
  rewrite H. apply Rmult_le_compat_l; [apply Rlt_le, p2_pos|]. eapply Rle_trans; [|exact X1]. rewrite (p2_IZR (d - 1)) by lia.
  apply Rmult_le_compat_r; [lra|]. apply IZR_le. lia.
Qed.

Lemma div_ok f g x y : is_value f x -> is_value g y -> y <> 0 -> x = 0 \/ pow2 (-1000) <= Rabs (x / y) -> Rabs (x / y) <= pow2 1000 ->
  exists z, is_value (f / g)%float z /\ Rabs (z - x / y) <= pow2 (-52) * Rabs (x / y).
Proof.
  unfold is_value. intros X Y NY B1 B2. rewrite div_spec.
  destruct (Prim2SF f) as [sf|sf| |sf mf ef]; cbn [sf_value] in X; try contradiction;
  destruct (Prim2SF g) as [sg|sg| |sg mg eg]; cbn [sf_value] in Y; try contradiction; unfold SF64div; cbn [SFdiv].
  - exists 0. split; [reflexivity|]. rewrite X. unfold Rdiv. rewrite Rmult_0_l, Rminus_0_r, Rabs_R0. lra.
  - assert (PF : 0 < IZR (Z.pos mf)) by (apply IZR_lt; lia). assert (PG : 0 < IZR (Z.pos mg)) by (apply IZR_lt; lia).
    pose proof (p2_pos ef) as Pef. pose proof (p2_pos eg) as Peg.
    assert (AX : 0 < IZR (Z.pos mf) * pow2 ef) by (apply Rmult_lt_0_compat; auto).
    assert (AY : 0 < IZR (Z.pos mg) * pow2 eg) by (apply Rmult_lt_0_compat; auto).
    set (Q := IZR (Z.pos mf) * pow2 ef / (IZR (Z.pos mg) * pow2 eg)).
    assert (PQ : 0 < Q) by (apply Rdiv_lt_0_compat; auto).
    assert (XY : x / y = sgn (xorb sf sg) * Q).
    { unfold Q. rewrite X, Y, !Rmult_assoc. unfold sgn. destruct sf, sg; cbn [xorb]; field; lra. }
    assert (AQ : Rabs (x / y) = Q).
    { rewrite XY, Rabs_mult, (Rabs_right Q) by lra.
      replace (Rabs (sgn (xorb sf sg))) with 1 by (unfold sgn; destruct (xorb sf sg); unfold Rabs; destruct (Rcase_abs _); lra). ring. }
    rewrite AQ in *. rewrite XY. destruct B1 as [B1|B1]; [exfalso; rewrite B1 in XY; unfold Rdiv in XY; rewrite Rmult_0_l in XY; unfold sgn in XY; destruct (xorb sf sg); lra|].
    unfold SFdiv_core_binary. set (d1 := Zdigits2 (Z.pos mf)). set (d2 := Zdigits2 (Z.pos mg)).
    destruct (digits_bounds (Z.pos mf) ltac:(lia)) as [[F1 F2] F3]. destruct (digits_bounds (Z.pos mg) ltac:(lia)) as [[G1 G2] G3].
    fold d1 in F1, F2, F3. fold d2 in G1, G2, G3.
    set (E := fexp prec emax (d1 + ef - (d2 + eg))). set (e' := Z.min E (ef - eg)).
    assert (EV : E = Z.max (d1 + ef - (d2 + eg) - 53) (-1074)) by reflexivity.
    set (s := (ef - eg - e')%Z). assert (S0 : (0 <= s)%Z) by lia.
    set (m' := match s with Z.pos _ => Z.shiftl (Z.pos mf) s | Z0 => Z.pos mf | Z.neg _ => 0%Z end).
    assert (M' : m' = (Z.pos mf * 2 ^ s)%Z).
    { unfold m'. destruct s as [|q|q]; [change (2 ^ 0)%Z with 1%Z; lia|rewrite Z.shiftl_mul_pow2 by lia; reflexivity|lia]. }
    pose proof (Z_div_mod m' (Z.pos mg) ltac:(lia)) as DM. destruct (Z.div_eucl m' (Z.pos mg)) as [q r]. destruct DM as [DM1 DM2].
    assert (PS : (0 < 2 ^ s)%Z) by (apply Z.pow_pos_nonneg; lia).
    (* the true quotient in units of 2^e' *)
    assert (QU : Q * (IZR (Z.pos mg)) = IZR m' * pow2 e').
    { rewrite M', mult_IZR, <- (p2_IZR s) by lia. unfold Q.
      assert (Z0 : pow2 s * pow2 e' * pow2 eg = pow2 ef) by (rewrite <- !p2_add; f_equal; lia).
      rewrite <- Z0. field. lra. }
    pose proof (p2_pos e') as Pe'.
    assert (QB : IZR q * pow2 e' <= Q < IZR (q + 1) * pow2 e').
    { assert (I1 : (q * Z.pos mg <= m')%Z) by lia. assert (I2 : (m' < (q + 1) * Z.pos mg)%Z) by lia.
      apply IZR_le in I1. apply IZR_lt in I2. rewrite mult_IZR in I1, I2. split.
      - apply (Rmult_le_reg_r (IZR (Z.pos mg))); auto. rewrite QU. nra.
      - apply (Rmult_lt_reg_r (IZR (Z.pos mg))); auto. rewrite QU. nra. }
    (* the size of the exponent *)
    assert (QL : Q < pow2 (d1 + ef - (d2 + eg) + 1)).
    { unfold Q. apply (Rmult_lt_reg_r (IZR (Z.pos mg) * pow2 eg)); auto. unfold Rdiv. rewrite Rmult_assoc, Rinv_l, Rmult_1_r by lra.
      replace (d1 + ef - (d2 + eg) + 1)%Z with ((d1 + ef) + - (d2 - 1 + eg))%Z by lia.
      apply (Rlt_le_trans _ (pow2 (d1 + ef))).
      - rewrite p2_add, (p2_IZR d1) by lia. apply IZR_lt in F2. nra.
      - rewrite (p2_add (d1 + ef)), Rmult_assoc. pose proof (p2_pos (d1 + ef)). rewrite <- (Rmult_1_r (pow2 (d1 + ef))) at 1.
        apply Rmult_le_compat_l; [lra|]. pose proof (p2_pos (- (d2 - 1 + eg))).
        replace 1 with (pow2 (- (d2 - 1 + eg)) * pow2 (d2 - 1 + eg)) by (rewrite <- p2_add; replace (- (d2 - 1 + eg) + (d2 - 1 + eg))%Z with 0%Z by lia; reflexivity).
        apply Rmult_le_compat_l; [lra|]. rewrite p2_add, (p2_IZR (d2 - 1)) by lia. apply IZR_le in G1. nra. }
    assert (DL : (-1001 < d1 + ef - (d2 + eg))%Z).
    { destruct (Z_lt_ge_dec (-1001) (d1 + ef - (d2 + eg))); auto. exfalso.
      assert (pow2 (d1 + ef - (d2 + eg) + 1) <= pow2 (-1000)) by (apply p2_le; lia). lra. }
    assert (E1 : E = (d1 + ef - (d2 + eg) - 53)%Z) by lia.
    assert (QP : (2 ^ (d1 - 1 + s - d2) <= q)%Z).
    { assert (S1 : (0 <= d1 - 1 + s - d2)%Z) by lia.
      assert (A1 : (2 ^ (d1 - 1) * 2 ^ s <= m')%Z) by (rewrite M'; nia).
      rewrite <- Z.pow_add_r in A1 by lia.
      assert (A2 : (2 ^ (d1 - 1 + s) = 2 ^ (d1 - 1 + s - d2) * 2 ^ d2)%Z) by (rewrite <- Z.pow_add_r by lia; f_equal; lia).
      set (w := (2 ^ (d1 - 1 + s - d2))%Z) in *. assert (0 < w)%Z by (unfold w; apply Z.pow_pos_nonneg; lia). nia. }
    assert (S1 : (0 <= d1 - 1 + s - d2)%Z) by lia.
    assert (PQz : (0 < q)%Z) by (eapply Z.lt_le_trans; [|exact QP]; apply Z.pow_pos_nonneg; lia).
    destruct (round_aux_weak (xorb sf sg) q e' (new_location (Z.pos mg) r) Q PQz) as (z & Z1 & Z2); auto.
    + destruct (digits_bounds q PQz) as [[K1 K2] K3]. set (dq := Zdigits2 q) in *.
      assert (2 ^ (d1 - 1 + s - d2) < 2 ^ dq)%Z as Q1 by lia. apply Z.pow_lt_mono_r_iff in Q1; try lia.
      unfold fexp, emin, prec, emax. lia.
    + exists z. split; [exact Z1|exact Z2].
Qed.
