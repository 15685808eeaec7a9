(** Normalising angles in double precision. *)
From Coq Require Import ZArith Bool Lia Reals Lra Psatz Floats SpecFloat FloatAxioms.
From Verif Require Import Codec_Spec Codec_Proofs Codec_Proofs3 FloatErr_Proofs FloatErr_Proofs5 Angle_Model2.
Local Open Scope R_scope.

Lemma value_det f x y : is_value f x -> is_value f y -> x = y.
Proof. unfold is_value. destruct (Prim2SF f); cbn [sf_value]; try contradiction; intros; congruence. Qed.

(** The remainder is exact. *)
Lemma fmod_exact x y X Y : is_value x X -> is_value y Y -> 0 < Y ->
  exists Z n, is_value (float_fmod x y) Z /\ Z = X - IZR n * Y /\ Rabs Z < Y /\ (0 <= X -> 0 <= Z) /\ (X <= 0 -> Z <= 0).
Proof.
  unfold is_value. intros VX VY P. unfold float_fmod. pose proof (Prim2SF_valid x) as WX. pose proof (Prim2SF_valid y) as WY.
  destruct (Prim2SF y) as [sy|sy| |sy my ey] eqn:EY; cbn [sf_value] in VY; try contradiction; [lra|].
  destruct (Prim2SF x) as [sx|sx| |sx mx ex] eqn:EX; cbn [sf_value] in VX; try contradiction.
  - exists 0, 0%Z. rewrite EX. cbn [sf_value]. rewrite Rabs_R0. repeat split; lra.
  - apply valid_iff in WX. apply valid_iff in WY. set (e := Z.min ex ey).
    set (a := (Z.pos mx * 2 ^ (ex - e))%Z). set (b := (Z.pos my * 2 ^ (ey - e))%Z).
    assert (P1 : (0 < 2 ^ (ex - e))%Z) by (apply Z.pow_pos_nonneg; lia). assert (P2 : (0 < 2 ^ (ey - e))%Z) by (apply Z.pow_pos_nonneg; lia).
    assert (Pa : (0 < a)%Z) by (unfold a; lia). assert (Pb : (0 < b)%Z) by (unfold b; lia).
    pose proof (Z.mod_pos_bound a b Pb) as RB. pose proof (Z.mod_le a b ltac:(lia) Pb) as RA. pose proof (Z.div_mod a b ltac:(lia)) as DM.
    set (r := (a mod b)%Z) in *. pose proof (p2_pos e) as Pe.
    assert (sy = false) as ->. { destruct sy; auto. exfalso. assert (0 < IZR (Z.pos my) * pow2 ey) by (apply Rmult_lt_0_compat; [apply IZR_lt; lia|apply p2_pos]). lra. }
    assert (VB : IZR b * pow2 e = Y). { unfold b. rewrite mult_IZR, <- p2_IZR by lia. rewrite VY, Rmult_assoc, <- p2_add. replace (ey - e + e)%Z with ey by lia. ring. }
    assert (VA : IZR (if sx then - a else a) * pow2 e = X).
    { assert (IZR a * pow2 e = IZR (Z.pos mx) * pow2 ex) as H. { unfold a. rewrite mult_IZR, <- p2_IZR by lia. rewrite Rmult_assoc, <- p2_add. replace (ex - e + e)%Z with ex by lia. ring. }
      rewrite VX. destruct sx; [rewrite opp_IZR|]; lra. }
    assert (R53 : (r < 2 ^ 53)%Z).
    { destruct (Z.min_spec ex ey) as [[L E]|[L E]]; fold e in E.
      - assert (a = Z.pos mx) by (unfold a; rewrite E, Z.sub_diag; change (2 ^ 0)%Z with 1%Z; lia). lia.
      - assert (b = Z.pos my) by (unfold b; rewrite E, Z.sub_diag; change (2 ^ 0)%Z with 1%Z; lia). lia. }
    set (q := (if sx then - r else r)%Z).
    assert (FT : fits (IZR q * pow2 e)) by (exists q, e; split; [reflexivity|]; unfold q; destruct sx; lia).
    destruct (normalize_exact q e sx ltac:(lia) FT) as [N1 N2].
    exists (IZR q * pow2 e), (if sx then - (a / b) else a / b)%Z. rewrite (Prim2SF_SF2Prim _ N2). split; [exact N1|].
    assert (QN : (q = (if sx then - a else a) - (if sx then - (a / b) else a / b) * b)%Z) by (unfold q; destruct sx; lia).
    split; [rewrite <- VA, <- VB, QN, minus_IZR, mult_IZR; ring|].
    assert (R0 : 0 <= IZR r * pow2 e) by (apply Rmult_le_pos; [apply IZR_le; lia|lra]).
    assert (R1 : IZR r * pow2 e < Y) by (rewrite <- VB; apply Rmult_lt_compat_r; [lra|apply IZR_lt; lia]).
    assert (A0 : 0 < IZR a * pow2 e) by (apply Rmult_lt_0_compat; [apply IZR_lt; lia|lra]).
    unfold q. rewrite <- VA. destruct sx; rewrite ?opp_IZR.
    + split; [|split; intros; lra]. replace (- IZR r * pow2 e) with (- (IZR r * pow2 e)) by ring. rewrite Rabs_Ropp, Rabs_right; lra.
    + split; [|split; intros; lra]. rewrite Rabs_right; lra.
Qed.

Lemma fmod_small x y X Y : is_value x X -> is_value y Y -> 0 <= X < Y -> is_value (float_fmod x y) X.
Proof.
  intros VX VY [L U]. destruct (fmod_exact x y X Y VX VY ltac:(lra)) as (Z & n & Z1 & Z2 & Z3 & Z4 & _). specialize (Z4 L).
  rewrite Rabs_right in Z3 by lra.
  assert (n1 : (n < 1)%Z). { apply lt_IZR. nra. } assert (n2 : (-1 < n)%Z). { apply lt_IZR. nra. }
  assert (n = 0%Z) as -> by lia. replace X with Z by lra. exact Z1.
Qed.

Lemma e53 : 9007199254740992 * pow2 (-53) = 1.
Proof. change 9007199254740992 with (IZR (2 ^ 53)). rewrite <- p2_IZR by lia. rewrite <- p2_add. reflexivity. Qed.

(** C60 in double precision: the result is from 0 up to, but not including, the modulus, and
    differs from a multiple of it by no more than the rounding of one sum. *)
Theorem mod_float : forall a b A B, is_value a A -> is_value b B -> 0 < B <= pow2 999 ->
  exists Z n, is_value (float_mod a b) Z /\ 0 <= Z < B /\ Rabs (Z - (A - IZR n * B)) <= pow2 (-52) * B.
Proof.
  intros a b A B VA VB [P1 P2]. unfold float_mod. destruct (fmod_exact a b A B VA VB P1) as (f & n & F1 & F2 & F3 & _).
  apply Rabs_def2 in F3. assert (P1000 : pow2 1000 = 2 * pow2 999) by (change 1000%Z with (1 + 999)%Z; rewrite p2_add, p2_1; reflexivity).
  destruct (add_ok _ _ f B F1 VB) as (s & S1 & S2); [rewrite Rabs_right; lra|]. rewrite (Rabs_right (f + B)) in S2 by lra.
  pose proof e53 as E53. pose proof (p2_pos (-53)) as P53.
  assert (E52 : pow2 (-52) = 2 * pow2 (-53)) by (change (-52)%Z with (1 + -53)%Z; rewrite p2_add, p2_1; reflexivity).
  apply abs_le in S2. assert (S3 : pow2 (-53) * (f + B) <= pow2 (-53) * (2 * B)) by (apply Rmult_le_compat_l; lra).
  assert (S4 : pow2 (-53) * (f + B) <= / 2 * (f + B)) by (apply Rmult_le_compat_r; lra).
  destruct (fmod_exact _ b s B S1 VB P1) as (Z & m & Z1 & Z2 & Z3 & Z4 & _). specialize (Z4 ltac:(lra)).
  rewrite Rabs_right in Z3 by lra. exists Z, (n + m - 1)%Z. split; [exact Z1|]. split; [lra|].
  rewrite minus_IZR, plus_IZR. rewrite Z2, F2 in *. rewrite E52. apply Rabs_le. split; lra.
Qed.
Print Assumptions mod_float.

Example mod_float_ex : exists a b A B, is_value a A /\ is_value b B /\ 0 < B <= pow2 999 /\ float_mod a b = 1%float.
Proof.
  exists (-8)%float, 3%float, (-8), 3.
  assert (Q : 2251799813685248 * pow2 (-51) = 1) by (change 2251799813685248 with (IZR (2 ^ 51)); rewrite <- p2_IZR by lia; rewrite <- p2_add; reflexivity).
  assert (Q2 : 562949953421312 * pow2 (-49) = 1) by (change 562949953421312 with (IZR (2 ^ 49)); rewrite <- p2_IZR by lia; rewrite <- p2_add; reflexivity).
  split; [|split; [|split]].
  - unfold is_value. replace (Prim2SF (-8)) with (S754_finite true 4503599627370496 (-49)) by (vm_compute; reflexivity). unfold sf_value. lra.
  - unfold is_value. replace (Prim2SF 3) with (S754_finite false 6755399441055744 (-51)) by (vm_compute; reflexivity). unfold sf_value. lra.
  - split; [lra|]. apply (Rle_trans _ (pow2 3)); [rewrite (p2_IZR 3) by lia; simpl; lra|apply p2_le; lia].
  - vm_compute. reflexivity.
Qed.

Lemma two_pi_value : is_value float_two_pi (7074237752028440 * pow2 (-50)).
Proof. unfold is_value. replace (Prim2SF float_two_pi) with (S754_finite false 7074237752028440 (-50)) by (vm_compute; reflexivity). unfold sf_value. ring. Qed.

Lemma e50 : 1125899906842624 * pow2 (-50) = 1.
Proof. change 1125899906842624 with (IZR (2 ^ 50)). rewrite <- p2_IZR by lia. rewrite <- p2_add. reflexivity. Qed.

(** Doubles from 2^k on are multiples of 2^(k-52). *)
Lemma coarse x k : fits x -> pow2 k <= x -> exists K, x = IZR K * pow2 (k - 52).
Proof.
  intros (q & e & E & Q & B) L. pose proof (p2_pos e) as Pe.
  assert (G : (k - 52 <= e)%Z).
  { destruct (Z_le_gt_dec (k - 52) e) as [|G]; auto. exfalso.
    assert (A1 : pow2 (53 + e) <= pow2 k) by (apply p2_le; lia). rewrite p2_add, (p2_IZR 53) in A1 by lia.
    assert (A2 : IZR q * pow2 e < IZR (2 ^ 53) * pow2 e) by (apply Rmult_lt_compat_r; [lra|apply IZR_lt; lia]). lra. }
  exists (q * 2 ^ (e - (k - 52)))%Z. rewrite mult_IZR, <- p2_IZR by lia. rewrite Rmult_assoc, <- p2_add.
  replace (e - (k - 52) + (k - 52))%Z with e by lia. exact E.
Qed.

(** C60 for the modulus of the code. *)
Theorem mod_2pi_float : forall a A, is_value a A ->
  exists Z n B, is_value float_two_pi B /\ is_value (float_mod_2pi a) Z /\ 0 <= Z < B /\ Rabs (Z - (A - IZR n * B)) <= pow2 (-49).
Proof.
  intros a A VA. pose proof two_pi_value as VB. pose proof e50 as E50.
  assert (P3 : 8 <= pow2 999) by (apply (Rle_trans _ (pow2 3)); [rewrite (p2_IZR 3) by lia; simpl; lra|apply p2_le; lia]).
  destruct (mod_float a float_two_pi A _ VA VB ltac:(lra)) as (Z & n & Z1 & Z2 & Z3).
  exists Z, n, (7074237752028440 * pow2 (-50)). split; [exact VB|]. split; [exact Z1|]. split; [exact Z2|]. eapply Rle_trans; [exact Z3|].
  replace (pow2 (-49)) with (pow2 (-52) * 8) by (replace 8 with (pow2 3) by (rewrite (p2_IZR 3) by lia; reflexivity); rewrite <- p2_add; reflexivity).
  apply Rmult_le_compat_l; [apply Rlt_le, p2_pos|lra].
Qed.
Print Assumptions mod_2pi_float.

Example mod_2pi_float_ex : is_value (-1)%float (-1) /\ float_mod_2pi (-1)%float = 0x1.521fb54442d18p+2%float.
Proof.
  split.
  - unfold is_value. replace (Prim2SF (-1)) with (S754_finite true 4503599627370496 (-52)) by (vm_compute; reflexivity). unfold sf_value.
    assert (IZR (2 ^ 52) * pow2 (-52) = 1) by (rewrite <- p2_IZR by lia; rewrite <- p2_add; reflexivity). change (2 ^ 52)%Z with 4503599627370496%Z in H. lra.
  - vm_compute. reflexivity.
Qed.

(** Normalising what is normalised already changes nothing, from numbers that are not negative. *)
Theorem mod_2pi_twice_float : forall a A, is_value a A -> 0 <= A ->
  exists Z, is_value (float_mod_2pi a) Z /\ is_value (float_mod_2pi (float_mod_2pi a)) Z.
Proof.
  intros a A VA PA. pose proof two_pi_value as VB. set (b := float_two_pi) in *. set (B := 7074237752028440 * pow2 (-50)) in *.
  pose proof e50 as E50. pose proof e53 as E53. pose proof (p2_pos (-53)) as P53. pose proof (p2_pos (-50)) as P50.
  assert (HB : 6 < B < 7) by (unfold B; lra).
  assert (P3 : 16 <= pow2 1000) by (apply (Rle_trans _ (pow2 4)); [rewrite (p2_IZR 4) by lia; simpl; lra|apply p2_le; lia]).
  assert (P4 : 8 <= pow2 999) by (apply (Rle_trans _ (pow2 3)); [rewrite (p2_IZR 3) by lia; simpl; lra|apply p2_le; lia]).
  destruct (mod_float a b A B VA VB ltac:(lra)) as (Z & _ & Z1 & Z2 & _). exists Z. split; [exact Z1|].
  unfold float_mod_2pi. fold b. set (r := float_mod a b) in *.
  unfold float_mod at 1. pose proof (fmod_small r b Z B Z1 VB Z2) as F1.
  assert (FT : fits (Z + B)).
  { unfold r, float_mod in Z1. destruct (fmod_exact a b A B VA VB ltac:(lra)) as (f & n & G1 & G2 & G3 & G4 & _). specialize (G4 PA).
    rewrite Rabs_right in G3 by lra.
    destruct (add_ok _ _ f B G1 VB) as (s & S1 & S2); [rewrite Rabs_right; lra|]. rewrite (Rabs_right (f + B)) in S2 by lra.
    apply abs_le in S2. assert (S3 : pow2 (-53) * (f + B) < pow2 (-53) * (2 * B)) by (apply Rmult_lt_compat_l; lra).
    assert (S5 : pow2 (-53) * (2 * B) <= pow2 (-53) * 14) by (apply Rmult_le_compat_l; lra).
    pose proof (value_fits _ _ S1) as FS.
    destruct (fmod_exact _ b s B S1 VB ltac:(lra)) as (Z' & m & Y1 & Y2 & _). pose proof (value_det _ _ _ Y1 Z1) as EZ. subst Z'.
    assert (LO : B <= s).
    { apply Rnot_lt_le. intro LT. destruct (coarse s 2 FS) as (K & EK); [rewrite (p2_IZR 2) by lia; simpl; lra|]. change (2 - 52)%Z with (-50)%Z in EK.
      assert (KL : (K < 7074237752028440)%Z). { apply lt_IZR. unfold B in LT. rewrite EK in LT. nra. }
      assert (KI : IZR K <= 7074237752028439) by (apply IZR_le; lia).
      assert (KM : IZR K * pow2 (-50) <= 7074237752028439 * pow2 (-50)) by (apply Rmult_le_compat_r; lra).
      assert (f * pow2 (-53) <= f * 1) by (apply Rmult_le_compat_l; lra). unfold B in *. lra. }
    assert (HI : s <= 2 * B).
    { apply Rnot_lt_le. intro LT. destruct (coarse s 3 FS) as (K & EK); [rewrite (p2_IZR 3) by lia; simpl; lra|]. change (3 - 52)%Z with (-49)%Z in EK.
      assert (E49 : pow2 (-49) = 2 * pow2 (-50)) by (change (-49)%Z with (1 + -50)%Z; rewrite p2_add, p2_1; reflexivity).
      assert (KL : (7074237752028440 < K)%Z). { apply lt_IZR. unfold B in LT. rewrite EK, E49 in LT. nra. }
      assert (KI : 7074237752028441 <= IZR K) by (apply IZR_le; lia).
      assert (KM : 7074237752028441 * pow2 (-49) <= IZR K * pow2 (-49)) by (apply Rmult_le_compat_r; lra). unfold B in *. lra. }
    assert (m1 : (m < 3)%Z). { apply lt_IZR. nra. } assert (m2 : (0 < m)%Z). { apply lt_IZR. nra. }
    assert (M : m = 1%Z \/ m = 2%Z) by lia. destruct M as [-> | ->].
    - replace (Z + B) with s by lra. exact FS.
    - replace (Z + B) with B by lra. exact (value_fits _ _ VB). }
  pose proof (add_exact _ _ Z B F1 VB FT) as S1.
  destruct (fmod_exact _ b (Z + B) B S1 VB ltac:(lra)) as (Z' & m & Y1 & Y2 & Y3 & Y4 & _). specialize (Y4 ltac:(lra)). rewrite Rabs_right in Y3 by lra.
  assert (m1 : (m < 2)%Z). { apply lt_IZR. nra. } assert (m2 : (0 < m)%Z). { apply lt_IZR. nra. }
  assert (m = 1%Z) as -> by lia. replace Z with Z' by lra. exact Y1.
Qed.
Print Assumptions mod_2pi_twice_float.

Example mod_2pi_twice_float_ex : exists a A, is_value a A /\ 0 <= A /\ float_mod_2pi a <> a.
Proof.
  exists 8%float, 8. split; [|split; [lra|]].
  - unfold is_value. replace (Prim2SF 8) with (S754_finite false 4503599627370496 (-49)) by (vm_compute; reflexivity). unfold sf_value.
    assert (IZR (2 ^ 49) * pow2 (-49) = 1) by (rewrite <- p2_IZR by lia; rewrite <- p2_add; reflexivity). change (2 ^ 49)%Z with 562949953421312%Z in H. lra.
  - intro H. apply (f_equal Prim2SF) in H. vm_compute in H. discriminate.
Qed.

(** C316 is refuted as stated: the angle -3.3 normalised once and twice. *)
Theorem mod_2pi_twice_float_refuted : exists a A Z Z', is_value a A /\ -4 < A < 0 /\
  is_value (float_mod_2pi a) Z /\ is_value (float_mod_2pi (float_mod_2pi a)) Z' /\ Z' < Z.
Proof.
  exists (-0x1.a666666666666p+1)%float, (- (7430939385161318 * pow2 (-51))), (6717536118895562 * pow2 (-51)), (6717536118895560 * pow2 (-51)).
  assert (E51 : 2251799813685248 * pow2 (-51) = 1) by (change 2251799813685248 with (IZR (2 ^ 51)); rewrite <- p2_IZR by lia; rewrite <- p2_add; reflexivity).
  split; [|split; [lra|split; [|split; [|lra]]]]; unfold is_value.
  - replace (Prim2SF (-0x1.a666666666666p+1)) with (S754_finite true 7430939385161318 (-51)) by (vm_compute; reflexivity). unfold sf_value. ring.
  - replace (Prim2SF (float_mod_2pi (-0x1.a666666666666p+1))) with (S754_finite false 6717536118895562 (-51)) by (vm_compute; reflexivity). unfold sf_value. ring.
  - replace (Prim2SF (float_mod_2pi (float_mod_2pi (-0x1.a666666666666p+1)))) with (S754_finite false 6717536118895560 (-51)) by (vm_compute; reflexivity). unfold sf_value. ring.
Qed.
Print Assumptions mod_2pi_twice_float_refuted.
