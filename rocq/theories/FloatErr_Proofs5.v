(** Numbers that fit into a double are not rounded. *)
From Coq Require Import ZArith Bool Lia Reals Lra Floats SpecFloat FloatAxioms Zpower List.
From Verif Require Import Codec_Spec Codec_Proofs Codec_Proofs3 FloatErr_Proofs.
Local Open Scope R_scope.

(** A number with at most 53 bits. *)
Definition fits (x : R) : Prop := exists q e, x = IZR q * pow2 e /\ (Z.abs q < 2 ^ 53)%Z /\ (-1074 <= e <= 971)%Z.

Lemma value_fits f x : is_value f x -> fits x.
Proof.
  unfold is_value. pose proof (Prim2SF_valid f) as V. destruct (Prim2SF f) as [s|s| |s m e]; cbn [sf_value]; try contradiction; intro X.
  - exists 0%Z, 0%Z. rewrite X, Rmult_0_l. split; [reflexivity|]. lia.
  - apply valid_iff in V. exists (if s then Z.neg m else Z.pos m), e. split; [|destruct s; lia].
    rewrite X. destruct s; [replace (IZR (Z.neg m)) with (- IZR (Z.pos m)) by (rewrite <- opp_IZR; reflexivity)|]; ring.
Qed.

Lemma round_aux_exact sx M e : (0 < M)%Z -> let E := fexp prec emax (Zdigits2 M + e) in
  (e <= E)%Z -> (E <= 971)%Z -> (2 ^ (E - e) | M)%Z ->
  exists n, binary_round_aux prec emax sx M e loc_Exact = S754_finite sx n E /\ (Zpos n * 2 ^ (E - e) = M)%Z /\
    SpecFloat.valid_binary prec emax (S754_finite sx n E) = true.
Proof.
  intros HM E HE H971 DV. unfold binary_round_aux, shr_fexp. cbn [shr_record_of_loc].
  destruct (digits_bounds M HM) as [[D1 D2] D3]. fold E. set (d := Zdigits2 M) in *.
  assert (EV : E = Z.max (d + e - 53) (-1074)) by reflexivity. clearbody E.
  set (x0 := {| shr_m := M; shr_r := false; shr_s := false |}).
  assert (S0 : shifted M 0 x0) by (exists 0%Z; cbn; lia).
  assert (SH : exists x, shr x0 e (E - e) = (x, E) /\ shifted M (E - e) x).
  { destruct (E - e)%Z as [|p|p] eqn:Ep; cbn [shr].
    - exists x0. split; auto. f_equal. lia.
    - exists (iter_pos shr_1 p x0). split; [f_equal; lia|]. apply (shifted_iter M p 0 x0); auto. lia.
    - lia. }
  destruct SH as (x & -> & SX). set (p := (E - e)%Z) in *.
  assert (P0 : (0 < 2 ^ p)%Z) by (apply Z.pow_pos_nonneg; lia).
  destruct SX as (rho & X1 & X2 & X3 & X4).
  assert (R0 : rho = 0%Z).
  { destruct DV as (k & K). rewrite K in X1. assert (KR : (2 ^ p * (k - shr_m x) = rho)%Z) by (rewrite Z.mul_sub_distr_l; lia). clear - KR X2 P0. set (j := (k - shr_m x)%Z) in *. destruct (Z_lt_ge_dec j 0); [nia|]. destruct (Z.eq_dec j 0) as [J|J]; [rewrite J in KR; lia|nia]. }
  assert (LX : loc_of_shr_record x = loc_Exact).
  { destruct x as [m r s]. cbn [shr_m shr_r shr_s] in *. destruct r, s; cbn [loc_of_shr_record]; auto; lia. }
  rewrite LX. cbn [round_nearest_even]. set (N := shr_m x) in *. clearbody N. clear X4 LX x X2.
  assert (MN : (N * 2 ^ p = M)%Z) by lia. assert (NP : (0 < N)%Z) by nia.
  destruct (digits_bounds N NP) as [[B1 B2] B3]. set (dn := Zdigits2 N) in *.
  assert (DN : (dn + p = d)%Z).
  { assert (Y1 : (2 ^ (dn - 1 + p) < 2 ^ d)%Z) by (rewrite Z.pow_add_r by lia; nia).
    assert (Y2 : (2 ^ (d - 1) < 2 ^ (dn + p))%Z) by (rewrite Z.pow_add_r by lia; nia).
    apply Z.pow_lt_mono_r_iff in Y1; try lia. apply Z.pow_lt_mono_r_iff in Y2; lia. }
  assert (F : fexp prec emax (dn + E) = E) by (unfold fexp, emin, prec, emax; lia).
  rewrite F, Z.sub_diag. cbn [shr shr_m]. destruct N as [|n|n]; try lia.
  replace (E <=? emax - prec)%Z with true by (symmetry; apply Z.leb_le; unfold emax, prec; lia).
  exists n. split; [reflexivity|]. split; [exact MN|]. cbn [SpecFloat.valid_binary]. unfold bounded, canonical_mantissa.
  change (Z.pos (digits2_pos n)) with dn. rewrite F. apply andb_true_iff. split; [apply Zeq_is_eq_bool; reflexivity|apply Z.leb_le; unfold emax, prec; lia].
Qed.

Lemma same_digits m e q f : (0 < m)%Z -> (0 < q)%Z -> IZR m * pow2 e = IZR q * pow2 f -> (Zdigits2 m + e = Zdigits2 q + f)%Z.
Proof.
  intros Hm Hq H. destruct (digits_bounds m Hm) as [[A1 A2] A3]. destruct (digits_bounds q Hq) as [[B1 B2] B3].
  set (a := Zdigits2 m) in *. set (b := Zdigits2 q) in *. pose proof (p2_pos e) as Pe. pose proof (p2_pos f) as Pf.
  apply IZR_le in A1, B1. apply IZR_lt in A2, B2.
  rewrite <- p2_IZR in A1, A2, B1, B2 by lia.
  assert (U1 : pow2 (a - 1 + e) <= IZR m * pow2 e < pow2 (a + e)) by (rewrite !p2_add; split; [apply Rmult_le_compat_r|apply Rmult_lt_compat_r]; lra).
  assert (U2 : pow2 (b - 1 + f) <= IZR q * pow2 f < pow2 (b + f)) by (rewrite !p2_add; split; [apply Rmult_le_compat_r|apply Rmult_lt_compat_r]; lra).
  rewrite H in U1.
  destruct (Z.lt_trichotomy (a + e) (b + f)) as [L|[L|L]]; auto; exfalso.
  - assert (pow2 (a + e) <= pow2 (b - 1 + f)) by (apply p2_le; lia). lra.
  - assert (pow2 (b + f) <= pow2 (a - 1 + e)) by (apply p2_le; lia). lra.
Qed.

Lemma round_exact s q e : (-1074 <= e)%Z -> fits (IZR (Zpos q) * pow2 e) ->
  sf_value (binary_round prec emax s q e) (sgn s * (IZR (Zpos q) * pow2 e)) /\ SpecFloat.valid_binary prec emax (binary_round prec emax s q e) = true.
Proof.
  intros He (k & f & K1 & K2 & K3). pose proof (p2_pos e) as Pe. pose proof (p2_pos f) as Pf.
  assert (Pq : 0 < IZR (Zpos q)) by (apply IZR_lt; lia).
  assert (Pk : (0 < k)%Z). { apply lt_IZR. assert (0 < IZR k * pow2 f) by (rewrite <- K1; apply Rmult_lt_0_compat; auto). nra. }
  pose proof (same_digits (Zpos q) e k f ltac:(lia) Pk K1) as D. destruct (digits_bounds k Pk) as [[B1 B2] B3].
  assert (DK : (Zdigits2 k <= 53)%Z).
  { destruct (Z_le_gt_dec (Zdigits2 k) 53); auto. exfalso. assert (2 ^ 53 <= 2 ^ (Zdigits2 k - 1))%Z by (apply Z.pow_le_mono_r; lia). lia. }
  cbn [Zdigits2] in D. unfold binary_round.
  set (E := fexp prec emax (Z.pos (digits2_pos q) + e)).
  assert (EV : E = Z.max (Z.pos (digits2_pos q) + e - 53) (-1074)) by reflexivity.
  assert (EF : (E <= f)%Z) by lia.
  destruct (Z_le_gt_dec e E) as [L|L].
  - assert (A : shl_align q e E = (q, e)) by (unfold shl_align; destruct (E - e)%Z eqn:Q; auto; lia). rewrite A.
    assert (DV : (2 ^ (E - e) | Zpos q)%Z).
    { exists (k * 2 ^ (f - E))%Z. rewrite <- Z.mul_assoc, <- Z.pow_add_r by lia. replace (f - E + (E - e))%Z with (f - e)%Z by lia.
      apply eq_IZR. rewrite mult_IZR, <- p2_IZR by lia. replace f with (f - e + e)%Z in K1 by lia. rewrite p2_add in K1.
      apply (Rmult_eq_reg_r (pow2 e)); [|lra]. rewrite K1. ring. }
    destruct (round_aux_exact s (Zpos q) e ltac:(lia) L ltac:(cbn [Zdigits2]; fold E; lia) DV) as (n & N1 & N2 & N3).
    cbn [Zdigits2] in N1, N2, N3. fold E in N1, N2, N3. rewrite N1. split; [|exact N3]. cbn [sf_value]. unfold sgn.
    rewrite <- N2, mult_IZR, <- p2_IZR by lia. assert (PE : pow2 E = pow2 (E - e) * pow2 e) by (rewrite <- p2_add; f_equal; lia). rewrite PE. ring.
  - destruct (align_ok q e E ltac:(lia)) as [A1 A2]. destruct (shl_align q e E) as [q' e''] eqn:A. cbn [fst snd] in *. subst e''.
    pose proof (same_digits (Zpos q') E (Zpos q) e ltac:(lia) ltac:(lia) A1) as D'. 
    assert (EE : fexp prec emax (Zdigits2 (Zpos q') + E) = E) by (rewrite D'; reflexivity).
    destruct (round_aux_exact s (Zpos q') E ltac:(lia)) as (n & N1 & N2 & N3).
    + rewrite EE. lia.
    + rewrite EE. lia.
    + rewrite EE, Z.sub_diag. exists (Zpos q'). change (2 ^ 0)%Z with 1%Z. lia.
    + rewrite EE in N1, N2, N3. rewrite N1. split; [|exact N3]. rewrite Z.sub_diag in N2. change (2 ^ 0)%Z with 1%Z in N2.
      assert (n = q') as -> by lia. cbn [sf_value]. unfold sgn. rewrite <- A1. ring.
Qed.

(** Rounding changes no number that fits. *)
Lemma normalize_exact m e z : (-1074 <= e)%Z -> fits (IZR m * pow2 e) ->
  sf_value (binary_normalize prec emax m e z) (IZR m * pow2 e) /\ SpecFloat.valid_binary prec emax (binary_normalize prec emax m e z) = true.
Proof.
  intros He F. destruct m as [|q|q]; cbn [binary_normalize].
  - split; [cbn [sf_value]; ring|reflexivity].
  - destruct (round_exact false q e He F) as [A B]. split; [|exact B]. unfold sgn in A. rewrite Rmult_1_l in A. exact A.
  - assert (Q : IZR (Z.neg q) = - IZR (Z.pos q)) by (rewrite <- opp_IZR; reflexivity). rewrite Q in *.
    assert (F' : fits (IZR (Z.pos q) * pow2 e)).
    { destruct F as (k & f & K1 & K2). exists (- k)%Z, f. rewrite opp_IZR. split; [lra|lia]. }
    destruct (round_exact true q e He F') as [A B]. split; [|exact B]. unfold sgn in A.
    replace (- IZR (Z.pos q) * pow2 e) with (-1 * (IZR (Z.pos q) * pow2 e)) by ring. exact A.
Qed.

(** A sum that fits is exact. *)
Lemma add_exact f g x y : is_value f x -> is_value g y -> fits (x + y) -> is_value (f + g)%float (x + y).
Proof.
  unfold is_value. intros X Y B. rewrite add_spec. pose proof (Prim2SF_valid f) as VF. pose proof (Prim2SF_valid g) as VG.
  destruct (Prim2SF f) as [sf|sf| |sf mf ef]; cbn [sf_value] in X; try contradiction;
  destruct (Prim2SF g) as [sg|sg| |sg mg eg]; cbn [sf_value] in Y; try contradiction; unfold SF64add; cbn [SFadd].
  - destruct (Bool.eqb sf sg); cbn [sf_value]; lra.
  - cbn [sf_value]. lra.
  - cbn [sf_value]. lra.
  - apply valid_iff in VF. apply valid_iff in VG. set (ez := Z.min ef eg).
    destruct (align_ok mf ef ez ltac:(lia)) as [A1 _]. destruct (align_ok mg eg ez ltac:(lia)) as [A2 _].
    set (a := fst (shl_align mf ef ez)) in *. set (b := fst (shl_align mg eg ez)) in *.
    assert (S : IZR (cond_Zopp sf (Z.pos a) + cond_Zopp sg (Z.pos b)) * pow2 ez = x + y).
    { rewrite plus_IZR, Rmult_plus_distr_r.
      assert (T : forall s q, IZR (cond_Zopp s (Z.pos q)) = (if s then -1 else 1) * IZR (Z.pos q)).
      { intros [|] q; cbn [cond_Zopp]; [rewrite opp_IZR|]; ring. }
      rewrite !T, !Rmult_assoc, A1, A2, X, Y. ring. }
    rewrite <- S in B |- *. apply (normalize_exact _ ez false); [lia|exact B].
Qed.
