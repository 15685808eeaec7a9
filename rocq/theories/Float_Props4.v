(** How far the closest point of a segment is off in double precision. *)
From Coq Require Import ZArith Bool Lia Reals Lra Psatz Floats SpecFloat FloatAxioms.
From Verif Require Import Num Point_Model Angle_Spec Codec_Spec Codec_Proofs3 FloatErr_Proofs FloatErr_Proofs2 FloatErr_Proofs4 Float_Props Float_Props2 Float_Props3.
Local Open Scope R_scope.

Lemma approx_opp f x e : approx f x e -> approx (- f)%float (- x) e.
Proof.
  intros (v & V & E). exists (- v). split.
  - unfold is_value in *. rewrite opp_spec. destruct (Prim2SF f) as [s|s| |s m k]; cbn [SFopp sf_value] in *; try contradiction; subst v; [ring|destruct s; cbn [negb]; ring].
  - replace (- v - - x) with (- (v - x)) by ring. rewrite Rabs_Ropp. exact E.
Qed.

(** Specification: the squared distance from P to the point at the part T of the segment. *)
Definition dist2_at (P S E : pt) (T : R) : R :=
  (px S + T * (px E - px S) - px P) * (px S + T * (px E - px S) - px P) +
  (py S + T * (py E - py S) - py P) * (py S + T * (py E - py S) - py P) +
  (pz S + T * (pz E - pz S) - pz P) * (pz S + T * (pz E - pz S) - pz P).

(** Specification: the nearest number from 0 to 1. *)
Definition clamp (t : R) : R := if Rlt_dec t 0 then 0 else if Rlt_dec 1 t then 1 else t.

Lemma clamp_range t : 0 <= clamp t <= 1.
Proof. unfold clamp. destruct (Rlt_dec t 0); [lra|]. destruct (Rlt_dec 1 t); lra. Qed.

Lemma clamp_near x y : Rabs (clamp x - clamp y) <= Rabs (x - y).
Proof.
  unfold clamp, Rabs. destruct (Rlt_dec x 0), (Rlt_dec y 0); try destruct (Rlt_dec 1 x); try destruct (Rlt_dec 1 y);
    repeat destruct (Rcase_abs _); lra.
Qed.

Lemma one_value : is_value (nofZ FNum 1) 1.
Proof.
  unfold is_value. replace (Prim2SF (nofZ FNum 1)) with (S754_finite false 4503599627370496 (-52)) by (vm_compute; reflexivity). unfold sf_value.
  assert (Q : IZR (2 ^ 52) * pow2 (-52) = 1) by (rewrite <- p2_IZR by lia; rewrite <- p2_add; reflexivity). change (2 ^ 52)%Z with 4503599627370496%Z in Q. lra.
Qed.
Lemma nil_value : is_value (nofZ FNum 0) 0.
Proof. unfold is_value. replace (Prim2SF (nofZ FNum 0)) with (S754_zero false) by (vm_compute; reflexivity). reflexivity. Qed.

Lemma clamp_value f t : is_value f t -> is_value (std_max FNum (nofZ FNum 0) (std_min FNum (nofZ FNum 1) f)) (clamp t).
Proof.
  intro V. pose proof one_value as V1. pose proof nil_value as V0.
  assert (M : exists m, is_value (std_min FNum (nofZ FNum 1) f) m /\ m = (if Rlt_dec t 1 then t else 1)).
  { unfold std_min. pose proof (ltb_ok _ _ _ _ V V1) as Q. change (nltb FNum f (nofZ FNum 1)) with (f <? nofZ FNum 1)%float.
    destruct (f <? nofZ FNum 1)%float; destruct (Rlt_dec t 1) as [L|L]; eexists; (split; [eassumption|]); auto.
    - exfalso. apply L, Q. reflexivity.
    - exfalso. apply Q in L. discriminate. }
  destruct M as (m & M1 & M2). unfold std_max. pose proof (ltb_ok _ _ _ _ V0 M1) as Q.
  change (nltb FNum (nofZ FNum 0) (std_min FNum (nofZ FNum 1) f)) with (nofZ FNum 0 <? std_min FNum (nofZ FNum 1) f)%float.
  unfold clamp. destruct (nofZ FNum 0 <? std_min FNum (nofZ FNum 1) f)%float.
  - assert (0 < m) by (apply Q; reflexivity). replace (if Rlt_dec t 0 then 0 else if Rlt_dec 1 t then 1 else t) with m; [exact M1|].
    subst m. destruct (Rlt_dec t 1), (Rlt_dec t 0), (Rlt_dec 1 t); lra.
  - assert (~ 0 < m) by (intro X; apply Q in X; discriminate). replace (if Rlt_dec t 0 then 0 else if Rlt_dec 1 t then 1 else t) with 0; [exact V0|].
    subst m. destruct (Rlt_dec t 1), (Rlt_dec t 0), (Rlt_dec 1 t); lra.
Qed.

(** The clamped quotient is the best part. *)
Lemma best_part (P S E : pt) (T : R) : let v2 := (px E - px S) * (px E - px S) + (py E - py S) * (py E - py S) + (pz E - pz S) * (pz E - pz S) in
  let vu := (px E - px S) * (px S - px P) + (py E - py S) * (py S - py P) + (pz E - pz S) * (pz S - pz P) in
  0 < v2 -> 0 <= T <= 1 -> dist2_at P S E (clamp (- vu / v2)) <= dist2_at P S E T.
Proof.
  intros v2 vu PV HT. set (c := clamp (- vu / v2)).
  assert (ID : dist2_at P S E T - dist2_at P S E c = v2 * ((T - c) * (T - c)) + 2 * ((T - c) * (v2 * c + vu))) by (unfold dist2_at, v2, vu; ring).
  assert (Q : v2 * (- vu / v2) = - vu) by (field; lra).
  assert (K : 0 <= (T - c) * (v2 * c + vu)).
  { unfold c, clamp. destruct (Rlt_dec (- vu / v2) 0) as [L|L].
    - apply Rmult_le_pos; [lra|]. rewrite Rmult_0_r. assert (v2 * (- vu / v2) < v2 * 0) by (apply Rmult_lt_compat_l; lra). lra.
    - destruct (Rlt_dec 1 (- vu / v2)) as [G|G].
      + assert (v2 * 1 < v2 * (- vu / v2)) by (apply Rmult_lt_compat_l; lra).
        replace ((T - 1) * (v2 * 1 + vu)) with ((1 - T) * (- (v2 * 1 + vu))) by ring. apply Rmult_le_pos; lra.
      + rewrite Q. replace ((T - - vu / v2) * (- vu + vu)) with 0 by ring. lra. }
  assert (0 <= v2 * ((T - c) * (T - c))) by (apply Rmult_le_pos; [lra|apply Rle_0_sqr]). lra.
Qed.

Section Closest.
  Variables (K L M : R).
  Hypothesis HK : 1 <= K.
  Hypothesis HL : 1 <= L.
  Hypothesis HKB : K <= pow2 200.
  Hypothesis HLB : L <= pow2 200.
  Hypothesis HMB : M <= pow2 200.
  Let u : R := pow2 (-53).

  Lemma mul_bound f g x y A B : 1 <= A <= pow2 200 -> 1 <= B <= pow2 200 -> approx f x (u * A) -> approx g y (u * B) -> Rabs x <= A -> Rabs y <= B ->
    approx (f * g)%float (x * y) (7 / 2 * u * (A * B)).
  Proof.
    intros HA HB' F G BX BY. pose proof uv as U. fold u in U. pose proof (p2_pos (-53)) as P. fold u in P.
    assert (AB : 1 <= A * B) by (replace 1 with (1 * 1) by ring; apply Rmult_le_compat; lra).
    assert (ABP : A * B <= pow2 400) by (change 400%Z with (200 + 200)%Z; rewrite p2_add; apply Rmult_le_compat; lra).
    set (W := A * B) in *.
    assert (UL : 0 <= u * W <= / 1000000 * W) by (split; [apply Rmult_le_pos; lra|apply Rmult_le_compat_r; lra]).
    assert (UUL : 0 <= u * (u * W) <= / 1000000 * (u * W)) by (split; [apply Rmult_le_pos; lra|apply Rmult_le_compat_r; lra]).
    assert (UUU : 0 <= u * (u * (u * W)) <= / 1000000 * (u * (u * W))) by (split; [apply Rmult_le_pos; lra|apply Rmult_le_compat_r; lra]).
    assert (T : pow2 (-1075) <= / 1000000 * (u * W)).
    { assert (T1 : pow2 (-1075) <= pow2 (-100)) by (apply p2_le; lia).
      assert (T2 : pow2 (-100) = u * pow2 (-47)) by (unfold u; rewrite <- p2_add; reflexivity).
      assert (T3 : 140737488355328 * pow2 (-47) = 1) by (change 140737488355328 with (IZR (2 ^ 47)); rewrite <- p2_IZR by lia; rewrite <- p2_add; reflexivity).
      assert (T4 : u * pow2 (-47) <= u * (/ 1000000 * W)) by (apply Rmult_le_compat_l; lra). lra. }
    assert (P2 : 2 * pow2 400 <= pow2 1000) by (apply (Rle_trans _ (pow2 401)); [change 401%Z with (1 + 400)%Z; rewrite p2_add, p2_1; lra|apply p2_le; lia]).
    assert (UA : 0 <= u * A) by (apply Rmult_le_pos; lra). assert (UB : 0 <= u * B) by (apply Rmult_le_pos; lra).
    assert (X : (A + u * A) * (B + u * B) = W + 2 * (u * W) + u * (u * W)) by (unfold W; ring).
    eapply approx_weaken; [apply (approx_mul f g x y (u * A) (u * B) A B F G UA UB BX BY)|fold u]; rewrite X; [lra|].
    replace (A * (u * B) + B * (u * A) + u * A * (u * B)) with (2 * (u * W) + u * (u * W)) by (unfold W; ring). lra.
  Qed.

  Lemma dot_bound (f g h a b c : float) x y z p q r A B : 1 <= A <= pow2 200 -> 1 <= B <= pow2 200 ->
    approx f x (u * A) -> approx g y (u * A) -> approx h z (u * A) -> approx a p (u * B) -> approx b q (u * B) -> approx c r (u * B) ->
    Rabs x <= A -> Rabs y <= A -> Rabs z <= A -> Rabs p <= B -> Rabs q <= B -> Rabs r <= B ->
    approx (f * a + g * b + h * c)%float (x * p + y * q + z * r) (17 * u * (A * B)).
  Proof.
    intros HA HB' F G H F' G' H' BX BY BZ BP BQ BR. pose proof uv as U. fold u in U. pose proof (p2_pos (-53)) as P. fold u in P.
    pose proof (mul_bound f a x p A B HA HB' F F' BX BP) as M1. pose proof (mul_bound g b y q A B HA HB' G G' BY BQ) as M2. pose proof (mul_bound h c z r A B HA HB' H H' BZ BR) as M3.
    assert (AB : 1 <= A * B) by (replace 1 with (1 * 1) by ring; apply Rmult_le_compat; lra).
    assert (ABP : A * B <= pow2 400) by (change 400%Z with (200 + 200)%Z; rewrite p2_add; apply Rmult_le_compat; lra).
    assert (Q : forall m n, Rabs m <= A -> Rabs n <= B -> Rabs (m * n) <= A * B) by (intros; rewrite Rabs_mult; apply Rmult_le_compat; auto using Rabs_pos).
    pose proof (Q _ _ BX BP) as Q1. pose proof (Q _ _ BY BQ) as Q2. pose proof (Q _ _ BZ BR) as Q3. set (W := A * B) in *.
    assert (UL : 0 <= u * W <= / 1000000 * W) by (split; [apply Rmult_le_pos; lra|apply Rmult_le_compat_r; lra]).
    assert (UUL : 0 <= u * (u * W) <= / 1000000 * (u * W)) by (split; [apply Rmult_le_pos; lra|apply Rmult_le_compat_r; lra]).
    assert (P2 : 4 * pow2 400 <= pow2 1000) by (apply (Rle_trans _ (pow2 402)); [change 402%Z with (2 + 400)%Z; rewrite p2_add, (p2_IZR 2) by lia; simpl; lra|apply p2_le; lia]).
    apply abs_le in Q1. apply abs_le in Q2. apply abs_le in Q3.
    assert (R1 : Rabs (x * p + y * q) <= 2 * W) by (apply Rabs_le; lra).
    assert (R2 : Rabs (x * p + y * q + z * r) <= 3 * W) by (apply Rabs_le; lra).
    assert (S1 : approx (f * a + g * b)%float (x * p + y * q) (19 / 2 * u * W)).
    { eapply approx_weaken; [apply (approx_add _ _ _ _ _ _ (5 / 2 * W) M1 M2); lra|fold u; lra]. }
    eapply approx_weaken; [apply (approx_add _ _ _ _ _ _ (3 * W + / 1000 * W) S1 M3); lra|fold u; lra].
  Qed.

  Lemma quotient_bound f g n d v2 : approx f n (17 * u * (L * K)) -> approx g v2 (17 * u * (L * L)) -> Rabs n <= 3 * (L * K) -> L * L <= v2 <= 3 * (L * L) -> d = n / v2 ->
    approx (f / g)%float d (76 * u * (L * K / v2)).
  Proof.
    intros (nv & N1 & N2) (dv & D1 & D2) BN [V1 V2] ->. pose proof uv as U. fold u in U. pose proof (p2_pos (-53)) as P. fold u in P.
    assert (LK : 1 <= L * K) by (replace 1 with (1 * 1) by ring; apply Rmult_le_compat; lra).
    assert (LL : 1 <= L * L) by (replace 1 with (1 * 1) by ring; apply Rmult_le_compat; lra).
    assert (LLP : L * L <= pow2 400) by (change 400%Z with (200 + 200)%Z; rewrite p2_add; apply Rmult_le_compat; lra).
    assert (LKP : L * K <= pow2 400) by (change 400%Z with (200 + 200)%Z; rewrite p2_add; apply Rmult_le_compat; lra).
    set (W := L * K) in *. set (LL2 := L * L) in *.
    assert (E1 : u * LL2 <= u * v2) by (apply Rmult_le_compat_l; lra).
    assert (E2 : 0 <= u * v2 <= / 1000000 * v2) by (split; [apply Rmult_le_pos; lra|apply Rmult_le_compat_r; lra]).
    assert (UW : 0 <= u * W <= / 1000000 * W) by (split; [apply Rmult_le_pos; lra|apply Rmult_le_compat_r; lra]).
    apply abs_le in D2. assert (DV : 999 / 1000 * v2 <= dv) by lra. assert (Pdv : 0 < dv) by lra.
    set (rho := W / v2). assert (Rv : rho * v2 = W) by (unfold rho; field; lra). assert (Rp : 0 < rho) by (unfold rho; apply Rdiv_lt_0_compat; lra).
    assert (DR : 999 / 1000 * W <= rho * dv). { rewrite <- Rv. replace (999 / 1000 * (rho * v2)) with (rho * (999 / 1000 * v2)) by ring. apply Rmult_le_compat_l; lra. }
    (* the exact quotient of the rounded numbers *)
    assert (Q1 : Rabs (nv / dv - n / v2) <= 69 * u * rho).
    { replace (nv / dv - n / v2) with (((nv - n) - n / v2 * (dv - v2)) / dv) by (field; lra).
      unfold Rdiv at 1. rewrite Rabs_mult, (Rabs_right (/ dv)) by (apply Rle_ge, Rlt_le, Rinv_0_lt_compat; lra).
      assert (X1 : Rabs (n / v2) <= 3 * rho).
      { unfold Rdiv. rewrite Rabs_mult, (Rabs_right (/ v2)) by (apply Rle_ge, Rlt_le, Rinv_0_lt_compat; lra). unfold rho, Rdiv. rewrite <- Rmult_assoc. apply Rmult_le_compat_r; [apply Rlt_le, Rinv_0_lt_compat; lra|lra]. }
      assert (X2 : Rabs (dv - v2) <= 17 * (u * v2)) by (apply Rabs_le; lra).
      assert (X3 : Rabs (n / v2 * (dv - v2)) <= 51 * (u * W)).
      { rewrite Rabs_mult. apply (Rle_trans _ (3 * rho * (17 * (u * v2)))); [apply Rmult_le_compat; auto using Rabs_pos|]. rewrite <- Rv. lra. }
      assert (X4 : Rabs (nv - n - n / v2 * (dv - v2)) <= 68 * (u * W)).
      { unfold Rminus at 1. eapply Rle_trans; [apply Rabs_triang|]. rewrite Rabs_Ropp. lra. }
      apply (Rmult_le_reg_r dv); auto. rewrite Rmult_assoc, Rinv_l, Rmult_1_r by lra.
      assert (X5 : u * (999 / 1000 * W) <= u * (rho * dv)) by (apply Rmult_le_compat_l; lra). lra. }
    assert (Q2 : Rabs (nv / dv) <= 31 / 10 * rho).
    { unfold Rdiv at 1. rewrite Rabs_mult, (Rabs_right (/ dv)) by (apply Rle_ge, Rlt_le, Rinv_0_lt_compat; lra).
      assert (X1 : Rabs nv <= 3 * W + 17 * (u * W)). { replace nv with (n + (nv - n)) by ring. eapply Rle_trans; [apply Rabs_triang|]. lra. }
      apply (Rmult_le_reg_r dv); auto. rewrite Rmult_assoc, Rinv_l, Rmult_1_r by lra. lra. }
    assert (RW : rho <= W). { apply (Rmult_le_reg_r v2); [lra|]. rewrite Rv. rewrite <- (Rmult_1_r W) at 1. apply Rmult_le_compat_l; lra. }
    assert (P2 : 4 * pow2 400 <= pow2 1000) by (apply (Rle_trans _ (pow2 402)); [change 402%Z with (2 + 400)%Z; rewrite p2_add, (p2_IZR 2) by lia; simpl; lra|apply p2_le; lia]).
    destruct (div_any f g nv dv N1 D1 ltac:(lra)) as (z & Z1 & Z2); [lra|].
    exists z. split; [exact Z1|].
    assert (T : pow2 (-1074) <= u * rho * / 1000).
    { (* the quotient is not below 2^-402 *)
      assert (T0 : pow2 (-402) <= rho).
      { apply (Rmult_le_reg_r v2); [lra|]. rewrite Rv. apply (Rle_trans _ (pow2 (-402) * (4 * pow2 400))).
        - apply Rmult_le_compat_l; [apply Rlt_le, p2_pos|lra].
        - replace (pow2 (-402) * (4 * pow2 400)) with 1; [lra|]. replace 4 with (pow2 2) by (rewrite (p2_IZR 2) by lia; reflexivity). rewrite <- !p2_add. reflexivity. }
      assert (T1 : pow2 (-1074) <= u * pow2 (-412)) by (unfold u; rewrite <- p2_add; apply p2_le; lia).
      assert (T2 : pow2 (-412) = pow2 (-402) * pow2 (-10)) by (rewrite <- p2_add; reflexivity).
      assert (T3 : 1024 * pow2 (-10) = 1) by (change 1024 with (IZR (2 ^ 10)); rewrite <- p2_IZR by lia; rewrite <- p2_add; reflexivity).
      assert (T4 : pow2 (-10) = / 1024) by lra. rewrite T4 in T2.
      assert (T5 : u * (pow2 (-402) * / 1024) <= u * (rho * / 1000)) by (apply Rmult_le_compat_l; lra). rewrite T2 in T1. lra. }
    assert (E52 : pow2 (-52) = 2 * u) by (change (-52)%Z with (1 + -53)%Z; rewrite p2_add, p2_1; reflexivity).
    assert (Z3 : Rmax (pow2 (-52) * Rabs (nv / dv)) (pow2 (-1074)) <= 63 / 10 * (u * rho)).
    { assert (u * Rabs (nv / dv) <= u * (31 / 10 * rho)) by (apply Rmult_le_compat_l; lra).
      assert (0 < u * rho) by (apply Rmult_lt_0_compat; lra). rewrite E52. apply Rmax_lub; lra. }
    assert (0 < u * rho) by (apply Rmult_lt_0_compat; lra).
    replace (z - n / v2) with ((z - nv / dv) + (nv / dv - n / v2)) by ring. eapply Rle_trans; [apply Rabs_triang|]. lra.
  Qed.

  Lemma approx_clamp f t e : approx f t e -> approx (std_max FNum (nofZ FNum 0) (std_min FNum (nofZ FNum 1) f)) (clamp t) e.
  Proof. intros (v & V & E). exists (clamp v). split; [apply clamp_value, V|]. eapply Rle_trans; [apply clamp_near|exact E]. Qed.

  Lemma place_bound f g h v t s rho : approx f v (u * L) -> approx g t (76 * u * rho) -> is_value h s -> Rabs v <= L -> 0 <= t <= 1 -> 0 <= rho -> L * rho <= K -> Rabs s <= M ->
    approx (f * g + h)%float (v * t + s) (u * (80 * K + 4 * L + M)).
  Proof.
    intros F G H BV BT Pr LR BS. pose proof uv as U. fold u in U. pose proof (p2_pos (-53)) as P. fold u in P.
    assert (UK : 0 <= u * K <= / 1000000 * K) by (split; [apply Rmult_le_pos; lra|apply Rmult_le_compat_r; lra]).
    assert (UL : 0 <= u * L <= / 1000000 * L) by (split; [apply Rmult_le_pos; lra|apply Rmult_le_compat_r; lra]).
    assert (UUL : 0 <= u * (u * L) <= / 1000000 * (u * L)) by (split; [apply Rmult_le_pos; lra|apply Rmult_le_compat_r; lra]).
    assert (UUK : 0 <= u * (u * K) <= / 1000000 * (u * K)) by (split; [apply Rmult_le_pos; lra|apply Rmult_le_compat_r; lra]).
    assert (LRp : 0 <= L * rho) by (apply Rmult_le_pos; lra). set (w := L * rho) in *.
    assert (Uw : 0 <= u * w <= u * K) by (split; [apply Rmult_le_pos; lra|apply Rmult_le_compat_l; lra]).
    assert (UUw : 0 <= u * (u * w) <= / 1000000 * (u * w)) by (split; [apply Rmult_le_pos; lra|apply Rmult_le_compat_r; lra]).
    assert (UUUw : 0 <= u * (u * (u * w)) <= / 1000000 * (u * (u * w))) by (split; [apply Rmult_le_pos; lra|apply Rmult_le_compat_r; lra]).
    assert (T : pow2 (-1075) <= / 1000000 * (u * L)).
    { assert (T1 : pow2 (-1075) <= pow2 (-100)) by (apply p2_le; lia).
      assert (T2 : pow2 (-100) = u * pow2 (-47)) by (unfold u; rewrite <- p2_add; reflexivity).
      assert (T3 : 140737488355328 * pow2 (-47) = 1) by (change 140737488355328 with (IZR (2 ^ 47)); rewrite <- p2_IZR by lia; rewrite <- p2_add; reflexivity).
      assert (T4 : u * pow2 (-47) <= u * (/ 1000000 * L)) by (apply Rmult_le_compat_l; lra). lra. }
    assert (P2 : 8 * pow2 200 <= pow2 1000) by (apply (Rle_trans _ (pow2 203)); [change 203%Z with (3 + 200)%Z; rewrite p2_add, (p2_IZR 3) by lia; simpl; lra|apply p2_le; lia]).
    assert (UR : 0 <= 76 * u * rho) by (apply Rmult_le_pos; lra).
    assert (AT : Rabs t <= 1) by (apply Rabs_le; lra).
    assert (X : (L + u * L) * (1 + 76 * u * rho) = L + u * L + 76 * (u * w) + 76 * (u * (u * w))) by (unfold w; ring).
    assert (Q : approx (f * g)%float (v * t) (77 * (u * K) + 5 / 2 * (u * L))).
    { eapply approx_weaken; [apply (approx_mul f g v t (u * L) (76 * u * rho) L 1 F G ltac:(lra) UR BV AT)|fold u]; rewrite X; [lra|].
      replace (L * (76 * u * rho) + 1 * (u * L) + u * L * (76 * u * rho)) with (76 * (u * w) + u * L + 76 * (u * (u * w))) by (unfold w; ring). lra. }
    assert (Q1 : Rabs (v * t) <= L) by (rewrite Rabs_mult; replace L with (L * 1) by ring; apply Rmult_le_compat; auto using Rabs_pos).
    apply abs_le in Q1. apply abs_le in BS. assert (R1 : Rabs (v * t + s) <= L + M) by (apply Rabs_le; lra).
    eapply approx_weaken; [apply (approx_add _ _ _ _ _ _ (5 / 4 * L + M + / 1000 * K) Q (approx_exact _ _ H)); lra|fold u; lra].
  Qed.
End Closest.

(** C320: closestPointInSegment, Point.cpp:169-175, returns a point within
    2^-53 (80 K + 4 L + M) of the closest one, in each coordinate, when the segment starts at
    most K from the point and ends at most L from its start along each axis, L along one of
    them, and starts at coordinates up to M. *)
Theorem closest_float : forall (p s e : point FNum) (P S E : pt) (K L M : R),
  value_pt p P -> value_pt s S -> value_pt e E ->
  1 <= K <= pow2 200 -> 1 <= L <= pow2 200 -> M <= pow2 200 ->
  Rabs (px S - px P) <= K -> Rabs (py S - py P) <= K -> Rabs (pz S - pz P) <= K ->
  Rabs (px E - px S) <= L -> Rabs (py E - py S) <= L -> Rabs (pz E - pz S) <= L ->
  Rabs (px E - px S) = L \/ Rabs (py E - py S) = L \/ Rabs (pz E - pz S) = L ->
  Rabs (px S) <= M -> Rabs (py S) <= M -> Rabs (pz S) <= M ->
  let q := p_closestPointInSegment FNum p s e in
  exists T, 0 <= T <= 1 /\ (forall T', 0 <= T' <= 1 -> dist2_at P S E T <= dist2_at P S E T') /\
    approx (px q) (px S + T * (px E - px S)) (pow2 (-53) * (80 * K + 4 * L + M)) /\
    approx (py q) (py S + T * (py E - py S)) (pow2 (-53) * (80 * K + 4 * L + M)) /\
    approx (pz q) (pz S + T * (pz E - pz S)) (pow2 (-53) * (80 * K + 4 * L + M)).
Proof.
  intros p s e P S E K L M (P1 & P2 & P3) (S1 & S2 & S3) (E1 & E2 & E3) [K1 K2] [L1 L2] M2 UX UY UZ VX VY VZ MX SX SY SZ q.
  set (v2 := (px E - px S) * (px E - px S) + (py E - py S) * (py E - py S) + (pz E - pz S) * (pz E - pz S)).
  set (vu := (px E - px S) * (px S - px P) + (py E - py S) * (py S - py P) + (pz E - pz S) * (pz S - pz P)).
  assert (P1000 : pow2 200 <= pow2 1000) by (apply p2_le; lia).
  assert (DF : forall f g x y b, is_value f x -> is_value g y -> Rabs (x - y) <= b -> b <= pow2 200 -> approx (f - g)%float (x - y) (pow2 (-53) * b)).
  { intros f g x y b F G B B'. eapply approx_weaken; [apply (approx_sub _ _ _ _ 0 0 b (approx_exact _ _ F) (approx_exact _ _ G)); lra|lra]. }
  pose proof (DF _ _ _ _ L E1 S1 VX L2) as A1. pose proof (DF _ _ _ _ L E2 S2 VY L2) as A2. pose proof (DF _ _ _ _ L E3 S3 VZ L2) as A3.
  pose proof (DF _ _ _ _ K S1 P1 UX K2) as B1. pose proof (DF _ _ _ _ K S2 P2 UY K2) as B2. pose proof (DF _ _ _ _ K S3 P3 UZ K2) as B3.
  pose proof (dot_bound _ _ _ _ _ _ _ _ _ _ _ _ L K ltac:(lra) ltac:(lra) A1 A2 A3 B1 B2 B3 VX VY VZ UX UY UZ) as N. fold vu in N.
  pose proof (dot_bound _ _ _ _ _ _ _ _ _ _ _ _ L L ltac:(lra) ltac:(lra) A1 A2 A3 A1 A2 A3 VX VY VZ VX VY VZ) as D. fold v2 in D.
  assert (SQ : forall x b, Rabs x <= b -> 0 <= x * x <= b * b).
  { intros x b H. split; [apply Rle_0_sqr|]. replace (x * x) with (Rabs x * Rabs x) by (rewrite <- Rabs_mult; apply Rabs_right, Rle_ge, Rle_0_sqr). apply Rmult_le_compat; auto using Rabs_pos. }
  assert (SE : forall x b, Rabs x = b -> x * x = b * b).
  { intros x b <-. rewrite <- Rabs_mult. symmetry. apply Rabs_right, Rle_ge, Rle_0_sqr. }
  pose proof (SQ _ _ VX) as QX. pose proof (SQ _ _ VY) as QY. pose proof (SQ _ _ VZ) as QZ.
  assert (V2 : L * L <= v2 <= 3 * (L * L)).
  { unfold v2. split; [|lra]. destruct MX as [X|[X|X]]; apply SE in X; lra. }
  assert (LL : 1 <= L * L) by (replace 1 with (1 * 1) by ring; apply Rmult_le_compat; lra).
  assert (MB : forall m n, Rabs m <= L -> Rabs n <= K -> Rabs (m * n) <= L * K) by (intros; rewrite Rabs_mult; apply Rmult_le_compat; auto using Rabs_pos).
  assert (NB : Rabs (- vu) <= 3 * (L * K)).
  { rewrite Rabs_Ropp. unfold vu. pose proof (MB _ _ VX UX) as Q1. pose proof (MB _ _ VY UY) as Q2. pose proof (MB _ _ VZ UZ) as Q3.
    apply abs_le in Q1. apply abs_le in Q2. apply abs_le in Q3. apply Rabs_le. lra. }
  pose proof (quotient_bound K L K1 L1 K2 L2 _ _ _ _ v2 (approx_opp _ _ _ N) D NB V2 eq_refl) as TQ.
  pose proof (approx_clamp _ _ _ TQ) as TC. pose proof (clamp_range (- vu / v2)) as CR. set (rho := L * K / v2) in *.
  assert (R0 : 0 <= rho). { unfold rho. apply Rlt_le, Rdiv_lt_0_compat; [|lra]. apply Rmult_lt_0_compat; lra. }
  assert (R1 : L * rho <= K).
  { apply (Rmult_le_reg_r v2); [lra|]. replace (L * rho * v2) with (L * L * K) by (unfold rho; field; lra). rewrite (Rmult_comm K). apply Rmult_le_compat_r; lra. }
  exists (clamp (- vu / v2)). split; [exact CR|]. split; [intros T' HT'; apply best_part; [change (0 < v2); lra|exact HT']|].
  split; [|split].
  - rewrite (Rplus_comm (px S)), (Rmult_comm _ (px E - px S)).
    exact (place_bound K L M K1 L1 K2 L2 M2 _ _ _ _ _ _ rho A1 TC S1 VX CR R0 R1 SX).
  - rewrite (Rplus_comm (py S)), (Rmult_comm _ (py E - py S)).
    exact (place_bound K L M K1 L1 K2 L2 M2 _ _ _ _ _ _ rho A2 TC S2 VY CR R0 R1 SY).
  - rewrite (Rplus_comm (pz S)), (Rmult_comm _ (pz E - pz S)).
    exact (place_bound K L M K1 L1 K2 L2 M2 _ _ _ _ _ _ rho A3 TC S3 VZ CR R0 R1 SZ).
Qed.
Print Assumptions closest_float.

(* Not vacuous: from (4, 5) to the segment from (0, 0) to (5, 4). *)
Example closest_float_ex : exists p s e P S E, value_pt p P /\ value_pt s S /\ value_pt e E /\ 1 <= 5 <= pow2 200 /\
  Rabs (px S - px P) <= 5 /\ Rabs (py S - py P) <= 5 /\ Rabs (pz S - pz P) <= 5 /\
  Rabs (px E - px S) = 5 /\ Rabs (py E - py S) <= 5 /\ Rabs (pz E - pz S) <= 5 /\
  Rabs (px S) <= 5 /\ Rabs (py S) <= 5 /\ Rabs (pz S) <= 5 /\
  (0 <? px (p_closestPointInSegment FNum p s e))%float = true /\ (px (p_closestPointInSegment FNum p s e) <? 5)%float = true.
Proof.
  assert (V0 : is_value 0%float 0) by exact nil_value.
  assert (Q : 1125899906842624 * pow2 (-50) = 1) by (change 1125899906842624 with (IZR (2 ^ 50)); rewrite <- p2_IZR by lia; rewrite <- p2_add; reflexivity).
  assert (V4 : is_value 4%float 4) by (unfold is_value; replace (Prim2SF 4) with (S754_finite false 4503599627370496 (-50)) by (vm_compute; reflexivity); unfold sf_value; lra).
  assert (V5 : is_value 5%float 5) by (unfold is_value; replace (Prim2SF 5) with (S754_finite false 5629499534213120 (-50)) by (vm_compute; reflexivity); unfold sf_value; lra).
  exists (mkPoint (N := FNum) 4%float 5%float 0%float), (mkPoint (N := FNum) 0%float 0%float 0%float), (mkPoint (N := FNum) 5%float 4%float 0%float),
    (mkPoint (N := RNum) 4 5 0), (mkPoint (N := RNum) 0 0 0), (mkPoint (N := RNum) 5 4 0).
  split; [split; [|split]; assumption|]. split; [split; [|split]; assumption|]. split; [split; [|split]; assumption|].
  cbn [px py pz].
  split; [split; [lra|apply (Rle_trans _ (pow2 3)); [rewrite (p2_IZR 3) by lia; simpl; lra|apply p2_le; lia]]|].
  do 3 (split; [apply Rabs_le; lra|]). split; [rewrite Rabs_right; lra|]. do 5 (split; [apply Rabs_le; lra|]). split; vm_compute; reflexivity.
Qed.
