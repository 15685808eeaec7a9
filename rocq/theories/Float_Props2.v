(** How far the intersection of lines is off in double precision. *)
From Coq Require Import ZArith Bool Lia Reals Lra Psatz Floats SpecFloat FloatAxioms.
From Verif Require Import Num Point_Model Angle_Spec Codec_Spec Codec_Proofs3 FloatErr_Proofs FloatErr_Proofs2 FloatErr_Proofs4 Float_Props.
Local Open Scope R_scope.

(** Specification: a double within [e] of [x]. *)
Definition approx (f : float) (x e : R) : Prop := exists v, is_value f v /\ Rabs (v - x) <= e.

Lemma approx_exact f x : is_value f x -> approx f x 0.
Proof. intro V. exists x. split; auto. replace (x - x) with 0 by ring. rewrite Rabs_R0. lra. Qed.

Lemma approx_weaken f x e e' : approx f x e -> e <= e' -> approx f x e'.
Proof. intros (v & V & E) L. exists v. split; auto. lra. Qed.

Lemma approx_sub f g x y ex ey b : approx f x ex -> approx g y ey -> Rabs (x - y) + ex + ey <= b -> b <= pow2 1000 ->
  approx (f - g)%float (x - y) (ex + ey + pow2 (-53) * b).
Proof.
  intros (v & V & EV) (w & W & EW) B1 B2.
  assert (D : Rabs (v - w - (x - y)) <= ex + ey).
  { replace (v - w - (x - y)) with ((v - x) + - (w - y)) by ring. eapply Rle_trans; [apply Rabs_triang|]. rewrite Rabs_Ropp. lra. }
  assert (S : Rabs (v - w) <= b).
  { replace (v - w) with ((x - y) + (v - w - (x - y))) by ring. eapply Rle_trans; [apply Rabs_triang|]. lra. }
  destruct (sub_ok f g v w V W) as (z & Z1 & Z2); [lra|].
  exists z. split; auto. replace (z - (x - y)) with ((z - (v - w)) + (v - w - (x - y))) by ring. eapply Rle_trans; [apply Rabs_triang|].
  assert (pow2 (-53) * Rabs (v - w) <= pow2 (-53) * b) by (apply Rmult_le_compat_l; [apply Rlt_le, p2_pos|auto]). lra.
Qed.

Lemma approx_mul f g x y ex ey X Y : approx f x ex -> approx g y ey -> 0 <= ex -> 0 <= ey -> Rabs x <= X -> Rabs y <= Y -> (X + ex) * (Y + ey) <= pow2 1000 ->
  approx (f * g)%float (x * y) (X * ey + Y * ex + ex * ey + pow2 (-53) * ((X + ex) * (Y + ey)) + pow2 (-1075)).
Proof.
  intros (v & V & EV) (w & W & EW) P1 P2 BX BY B.
  pose proof (Rabs_pos x) as PX. pose proof (Rabs_pos y) as PY. pose proof (Rabs_pos (v - x)) as PV. pose proof (Rabs_pos (w - y)) as PW.
  assert (D : Rabs (v * w - x * y) <= X * ey + Y * ex + ex * ey).
  { replace (v * w - x * y) with (x * (w - y) + y * (v - x) + (v - x) * (w - y)) by ring.
    eapply Rle_trans; [apply Rabs_triang|]. eapply Rle_trans; [apply Rplus_le_compat_r, Rabs_triang|]. rewrite !Rabs_mult.
    assert (Rabs x * Rabs (w - y) <= X * ey) by (apply Rmult_le_compat; lra).
    assert (Rabs y * Rabs (v - x) <= Y * ex) by (apply Rmult_le_compat; lra).
    assert (Rabs (v - x) * Rabs (w - y) <= ex * ey) by (apply Rmult_le_compat; lra). lra. }
  assert (S : Rabs (v * w) <= (X + ex) * (Y + ey)).
  { rewrite Rabs_mult. apply Rmult_le_compat; try apply Rabs_pos.
    - replace v with (x + (v - x)) by ring. eapply Rle_trans; [apply Rabs_triang|]. lra.
    - replace w with (y + (w - y)) by ring. eapply Rle_trans; [apply Rabs_triang|]. lra. }
  destruct (mul_ok f g v w V W) as (z & Z1 & Z2); [lra|].
  exists z. split; auto. replace (z - x * y) with ((z - v * w) + (v * w - x * y)) by ring. eapply Rle_trans; [apply Rabs_triang|].
  pose proof (p2_pos (-53)). pose proof (p2_pos (-1075)).
  assert (pow2 (-53) * Rabs (v * w) <= pow2 (-53) * ((X + ex) * (Y + ey))) by (apply Rmult_le_compat_l; lra).
  assert (0 <= pow2 (-53) * Rabs (v * w)) by (apply Rmult_le_pos; [lra|apply Rabs_pos]).
  assert (Rmax (pow2 (-53) * Rabs (v * w)) (pow2 (-1075)) <= pow2 (-53) * ((X + ex) * (Y + ey)) + pow2 (-1075)) by (apply Rmax_lub; lra). lra.
Qed.

Lemma eqb_zero f v : is_value f v -> v <> 0 -> neqb FNum f (nofZ FNum 0) = false.
Proof.
  intros V NZ. change (neqb FNum f (nofZ FNum 0)) with (PrimFloat.eqb f 0). rewrite eqb_spec.
  replace (Prim2SF 0) with (S754_zero false) by (vm_compute; reflexivity). unfold is_value in V.
  destruct (Prim2SF f) as [s|s| |s m e]; cbn [sf_value] in V; try contradiction. destruct s; reflexivity.
Qed.

Section Error.
  Variables (M L : R).
  Hypothesis HL : pow2 (-200) <= L.
  Hypothesis HLM : L <= M.
  Hypothesis HM : M <= pow2 200.
  Let u : R := pow2 (-53).

  Lemma uv : 9007199254740992 * u = 1.
  Proof. unfold u. change 9007199254740992 with (IZR (2 ^ 53)). rewrite <- p2_IZR by lia. rewrite <- p2_add. reflexivity. Qed.
  Lemma LP : 0 < L. Proof. pose proof (p2_pos (-200)). lra. Qed.

  Lemma tiny a b c d : L <= a -> L <= b -> L <= c -> L <= d -> pow2 (-1074) <= u * (a * b) /\ pow2 (-1074) <= u * (a * b * c) /\ pow2 (-1074) <= u * (a * b * c * d).
  Proof.
    intros A B C D. pose proof LP as P0.
    assert (E2 : pow2 (-400) <= a * b) by (change (-400)%Z with (-200 + -200)%Z; rewrite p2_add; pose proof (p2_pos (-200)); apply Rmult_le_compat; lra).
    assert (E3 : pow2 (-600) <= a * b * c) by (change (-600)%Z with (-400 + -200)%Z; rewrite p2_add; pose proof (p2_pos (-200)); pose proof (p2_pos (-400)); apply Rmult_le_compat; lra).
    assert (E4 : pow2 (-800) <= a * b * c * d) by (change (-800)%Z with (-600 + -200)%Z; rewrite p2_add; pose proof (p2_pos (-200)); pose proof (p2_pos (-600)); apply Rmult_le_compat; lra).
    assert (G : forall k x, (-1021 <= k)%Z -> pow2 k <= x -> pow2 (-1074) <= u * x).
    { intros k x Hk Hx. apply (Rle_trans _ (u * pow2 k)); [unfold u; rewrite <- p2_add; apply p2_le; lia|]. apply Rmult_le_compat_l; [unfold u; apply Rlt_le, p2_pos|auto]. }
    split; [|split]; [apply (G (-400)%Z)|apply (G (-600)%Z)|apply (G (-800)%Z)]; auto; lia.
  Qed.

  Lemma huge : 16 * (M * M) <= pow2 1000 /\ 16 * (M * M * M) <= pow2 1000 /\ 16 * M <= pow2 1000.
  Proof.
    pose proof LP as P0.
    assert (A2 : M * M <= pow2 400) by (change 400%Z with (200 + 200)%Z; rewrite p2_add; apply Rmult_le_compat; lra).
    assert (A3 : M * M * M <= pow2 600) by (change 600%Z with (400 + 200)%Z; rewrite p2_add; apply Rmult_le_compat; try lra; apply Rmult_le_pos; lra).
    assert (G : forall k x, (k <= 996)%Z -> x <= pow2 k -> 16 * x <= pow2 1000).
    { intros k x Hk Hx. apply (Rle_trans _ (pow2 4 * pow2 k)); [rewrite (p2_IZR 4) by lia; change (2 ^ 4)%Z with 16%Z; lra|]. rewrite <- p2_add. apply p2_le. lia. }
    split; [|split]; [apply (G 400%Z)|apply (G 600%Z)|apply (G 200%Z)]; auto; lia.
  Qed.

  (** A difference of coordinates. *)
  Lemma e_diff f g x y : is_value f x -> is_value g y -> Rabs (x - y) <= L -> approx (f - g)%float (x - y) (u * L).
  Proof.
    intros V W B. destruct huge as (_ & _ & H1). pose proof LP. eapply approx_weaken.
    - apply (approx_sub f g x y 0 0 L); [apply approx_exact; auto|apply approx_exact; auto|lra|lra].
    - fold u. lra.
  Qed.

  (** The determinant of two differences. *)
  Lemma e_den f1 g1 f2 g2 x1 y1 x2 y2 : approx f1 x1 (u * L) -> approx g1 y1 (u * L) -> approx f2 x2 (u * L) -> approx g2 y2 (u * L) ->
    Rabs x1 <= L -> Rabs y1 <= L -> Rabs x2 <= L -> Rabs y2 <= L ->
    approx (f1 * g2 - g1 * f2)%float (x1 * y2 - y1 * x2) (13 * u * (L * L)) /\ Rabs (x1 * y2 - y1 * x2) <= 2 * (L * L).
  Proof.
    intros A1 A2 A3 A4 B1 B2 B3 B4. pose proof LP as P0. pose proof uv as U. destruct huge as (H2 & _ & _).
    assert (PU : 0 < u) by lra. assert (PUL : 0 <= u * L) by (apply Rmult_le_pos; lra).
    destruct (tiny L L L L) as (T2 & _); try lra. pose proof (p2_le (-1075) (-1074) ltac:(lia)) as T0.
    assert (P2 : 0 <= L * L) by (apply Rmult_le_pos; lra). assert (LM2 : L * L <= M * M) by (apply Rmult_le_compat; lra).
    assert (UU : u * u * (L * L) <= / 1000 * u * (L * L)) by (apply Rmult_le_compat_r; [auto|]; apply Rmult_le_compat_r; lra).
    assert (UU0 : 0 <= u * u * (L * L)) by (apply Rmult_le_pos; [apply Rmult_le_pos; lra|auto]).
    assert (UUU : u * u * u * (L * L) <= / 1000 * (u * u * (L * L))) by (replace (u * u * u * (L * L)) with (u * (u * u * (L * L))) by ring; apply Rmult_le_compat_r; lra).
    assert (UL2 : u * (L * L) <= / 1000 * (L * L)) by (apply Rmult_le_compat_r; lra).
    assert (UL20 : 0 <= u * (L * L)) by (apply Rmult_le_pos; lra).
    assert (Pr : forall f g x y, approx f x (u * L) -> approx g y (u * L) -> Rabs x <= L -> Rabs y <= L -> approx (f * g)%float (x * y) (5 * u * (L * L)) /\ Rabs (x * y) <= L * L).
    { intros f g x y F G X Y. split; [|rewrite Rabs_mult; apply Rmult_le_compat; auto using Rabs_pos]. eapply approx_weaken.
      - apply (approx_mul f g x y (u * L) (u * L) L L); auto.
        replace ((L + u * L) * (L + u * L)) with (L * L + 2 * (u * (L * L)) + u * u * (L * L)) by ring. lra.
      - fold u. replace (L * (u * L) + L * (u * L) + u * L * (u * L) + u * ((L + u * L) * (L + u * L)) + pow2 (-1075))
          with (3 * (u * (L * L)) + 3 * (u * u * (L * L)) + u * u * u * (L * L) + pow2 (-1075)) by ring. lra. }
    destruct (Pr f1 g2 x1 y2 A1 A4 B1 B4) as [Q1 Q2]. destruct (Pr g1 f2 y1 x2 A2 A3 B2 B3) as [Q3 Q4].
    assert (R : Rabs (x1 * y2 - y1 * x2) <= 2 * (L * L)) by (apply abs_le in Q2; apply abs_le in Q4; apply Rabs_le; split; lra).
    split; [|exact R]. eapply approx_weaken.
    - apply (approx_sub _ _ _ _ _ _ (3 * (L * L)) Q1 Q3); lra.
    - fold u. lra.
  Qed.

  (** The determinant of two points. *)
  Lemma e_det f1 g1 f2 g2 x1 y1 x2 y2 : is_value f1 x1 -> is_value g1 y1 -> is_value f2 x2 -> is_value g2 y2 ->
    Rabs x1 <= M -> Rabs y1 <= M -> Rabs x2 <= M -> Rabs y2 <= M ->
    approx (f1 * g2 - g1 * f2)%float (x1 * y2 - y1 * x2) (7 * u * (M * M)) /\ Rabs (x1 * y2 - y1 * x2) <= 2 * (M * M).
  Proof.
    intros A1 A2 A3 A4 B1 B2 B3 B4. pose proof LP as P0. pose proof uv as U. destruct huge as (H2 & _ & _).
    assert (PU : 0 < u) by lra.
    destruct (tiny M M M M) as (T2 & _); try lra. pose proof (p2_le (-1075) (-1074) ltac:(lia)) as T0.
    assert (P2 : 0 <= M * M) by (apply Rmult_le_pos; lra).
    assert (UL2 : u * (M * M) <= / 1000 * (M * M)) by (apply Rmult_le_compat_r; lra).
    assert (UL20 : 0 <= u * (M * M)) by (apply Rmult_le_pos; lra).
    assert (Pr : forall f g x y, is_value f x -> is_value g y -> Rabs x <= M -> Rabs y <= M -> approx (f * g)%float (x * y) (2 * u * (M * M)) /\ Rabs (x * y) <= M * M).
    { intros f g x y F G X Y. split; [|rewrite Rabs_mult; apply Rmult_le_compat; auto using Rabs_pos]. eapply approx_weaken.
      - apply (approx_mul f g x y 0 0 M M); auto using approx_exact; try lra.
      - fold u. replace (M * 0 + M * 0 + 0 * 0 + u * ((M + 0) * (M + 0)) + pow2 (-1075)) with (u * (M * M) + pow2 (-1075)) by ring. lra. }
    destruct (Pr f1 g2 x1 y2 A1 A4 B1 B4) as [Q1 Q2]. destruct (Pr g1 f2 y1 x2 A2 A3 B2 B3) as [Q3 Q4].
    assert (R : Rabs (x1 * y2 - y1 * x2) <= 2 * (M * M)) by (apply abs_le in Q2; apply abs_le in Q4; apply Rabs_le; split; lra).
    split; [|exact R]. eapply approx_weaken.
    - apply (approx_sub _ _ _ _ _ _ (3 * (M * M)) Q1 Q3); lra.
    - fold u. lra.
  Qed.

  (** One coordinate of the numerator. *)
  Lemma e_num f1 f2 k1 k2 x1 x2 d1 d2 : approx f1 x1 (u * L) -> approx f2 x2 (u * L) -> approx k1 d1 (7 * u * (M * M)) -> approx k2 d2 (7 * u * (M * M)) ->
    Rabs x1 <= L -> Rabs x2 <= L -> Rabs d1 <= 2 * (M * M) -> Rabs d2 <= 2 * (M * M) ->
    approx (f2 * k1 - f1 * k2)%float (x2 * d1 - x1 * d2) (31 * u * (L * M * M)) /\ Rabs (x2 * d1 - x1 * d2) <= 4 * (L * M * M).
  Proof.
    intros A1 A2 A3 A4 B1 B2 B3 B4. pose proof LP as P0. pose proof uv as U. destruct huge as (_ & H3 & _).
    assert (PU : 0 < u) by lra. assert (PUL : 0 <= u * L) by (apply Rmult_le_pos; lra).
    destruct (tiny L M M M) as (_ & T2 & _); try lra. pose proof (p2_le (-1075) (-1074) ltac:(lia)) as T0.
    assert (P2 : 0 <= M * M) by (apply Rmult_le_pos; lra). set (Q := L * M * M) in *.
    assert (PQ : 0 <= Q) by (unfold Q; apply Rmult_le_pos; [apply Rmult_le_pos|]; lra).
    assert (QM : Q <= M * M * M) by (unfold Q; apply Rmult_le_compat_r; [lra|]; apply Rmult_le_compat_r; lra).
    assert (UQ : 0 <= u * Q <= / 1000 * Q) by (split; [apply Rmult_le_pos; lra|apply Rmult_le_compat_r; lra]).
    assert (UU : 0 <= u * u * Q <= / 1000 * (u * Q)) by (rewrite Rmult_assoc; split; [apply Rmult_le_pos; lra|apply Rmult_le_compat_r; lra]).
    assert (UUU : u * u * u * Q <= / 1000 * (u * u * Q)) by (replace (u * u * u * Q) with (u * (u * u * Q)) by ring; apply Rmult_le_compat_r; lra).
    assert (UM : 0 <= 7 * u * (M * M)) by (apply Rmult_le_pos; lra).
    assert (Pr : forall f g x y, approx f x (u * L) -> approx g y (7 * u * (M * M)) -> Rabs x <= L -> Rabs y <= 2 * (M * M) -> approx (f * g)%float (x * y) (13 * u * Q) /\ Rabs (x * y) <= 2 * Q).
    { intros f g x y F G X Y. split; [|rewrite Rabs_mult; replace (2 * Q) with (L * (2 * (M * M))) by (unfold Q; ring); apply Rmult_le_compat; auto using Rabs_pos]. eapply approx_weaken.
      - apply (approx_mul f g x y (u * L) (7 * u * (M * M)) L (2 * (M * M))); auto.
        replace ((L + u * L) * (2 * (M * M) + 7 * u * (M * M))) with (2 * Q + 9 * (u * Q) + 7 * (u * u * Q)) by (unfold Q; ring). lra.
      - fold u. replace (L * (7 * u * (M * M)) + 2 * (M * M) * (u * L) + u * L * (7 * u * (M * M)) + u * ((L + u * L) * (2 * (M * M) + 7 * u * (M * M))) + pow2 (-1075))
          with (11 * (u * Q) + 16 * (u * u * Q) + 7 * (u * u * u * Q) + pow2 (-1075)) by (unfold Q; ring). lra. }
    destruct (Pr f2 k1 x2 d1 A2 A3 B2 B3) as [Q1 Q2]. destruct (Pr f1 k2 x1 d2 A1 A4 B1 B4) as [Q3 Q4].
    assert (R : Rabs (x2 * d1 - x1 * d2) <= 4 * Q) by (apply abs_le in Q2; apply abs_le in Q4; apply Rabs_le; split; lra).
    split; [|exact R]. eapply approx_weaken.
    - apply (approx_sub _ _ _ _ _ _ (5 * Q) Q1 Q3); lra.
    - fold u. lra.
  Qed.

  (** The quotient. *)
  Lemma e_quot f g n d q delta : approx f n (31 * u * (L * M * M)) -> approx g d (13 * u * (L * L)) -> Rabs n <= 4 * (L * M * M) ->
    Rabs d <= 2 * (L * L) -> delta <= Rabs d -> 100 * u * (L * L) <= delta -> q * d = n ->
    (exists v, is_value g v /\ v <> 0) /\ approx (f / g)%float q (u * (64 * (L * M * M) / delta + 32 * Rabs q * (L * L) / delta)).
  Proof.
    intros (nf & V & EV) (df & W & EW) BN BD DD DL E. pose proof LP as P0. pose proof uv as U.
    assert (PU : 0 < u) by lra. set (Q := L * M * M) in *. set (K := L * L) in *.
    assert (PK : 0 < K) by (unfold K; apply Rmult_lt_0_compat; lra).
    assert (PQ : 0 < Q) by (unfold Q; apply Rmult_lt_0_compat; [apply Rmult_lt_0_compat|]; lra).
    assert (UK : 0 < u * K) by (apply Rmult_lt_0_compat; lra). assert (PD : 0 < delta) by lra.
    assert (UQ : 0 < u * Q <= / 1000 * Q) by (split; [apply Rmult_lt_0_compat; lra|apply Rmult_le_compat_r; lra]).
    assert (AD : delta / 2 <= Rabs df).
    { replace d with (df + - (df - d)) in DD by ring. pose proof (Rabs_triang df (- (df - d))) as T. rewrite Rabs_Ropp in T. lra. }
    assert (D0 : df <> 0) by (intro X; rewrite X, Rabs_R0 in AD; lra).
    split; [exists df; auto|].
    pose proof (Rabs_pos q) as PAq.
    assert (ID : / Rabs df <= 2 / delta).
    { unfold Rdiv. replace (2 * / delta) with (/ (delta / 2)) by (field; lra). apply Rinv_le_contravar; lra. }
    assert (PID : 0 < / Rabs df) by (apply Rinv_0_lt_compat; lra).
    assert (BQ : Rabs (nf / df - q) <= (31 * (u * Q) + Rabs q * (13 * (u * K))) * (2 / delta)).
    { replace (nf / df - q) with (((nf - n) + - (q * (df - d))) * / df) by (rewrite <- E; field; auto).
      rewrite Rabs_mult, Rabs_inv. apply Rmult_le_compat; auto using Rabs_pos; [lra|].
      eapply Rle_trans; [apply Rabs_triang|]. rewrite Rabs_Ropp, Rabs_mult.
      assert (Rabs q * Rabs (df - d) <= Rabs q * (13 * (u * K))) by (apply Rmult_le_compat_l; lra). lra. }
    set (z1 := u * Q / delta). set (z2 := u * (Rabs q * K) / delta).
    assert (P1 : 0 < z1) by (unfold z1; apply Rdiv_lt_0_compat; lra).
    assert (P2 : 0 <= z2) by (unfold z2, Rdiv; apply Rmult_le_pos; [apply Rmult_le_pos; [lra|apply Rmult_le_pos; lra]|apply Rlt_le, Rinv_0_lt_compat; lra]).
    assert (BQ' : Rabs (nf / df - q) <= 62 * z1 + 26 * z2).
    { eapply Rle_trans; [exact BQ|]. right. unfold z1, z2. field. lra. }
    assert (KD : / 2 <= K / delta).
    { apply (Rmult_le_reg_r delta); [lra|]. unfold Rdiv. rewrite Rmult_assoc, Rinv_l by lra. lra. }
    assert (UQ2 : u * Rabs q <= 2 * z2).
    { replace (2 * z2) with (u * Rabs q * (2 * (K / delta))) by (unfold z2; field; lra).
      rewrite <- (Rmult_1_r (u * Rabs q)) at 1. apply Rmult_le_compat_l; [apply Rmult_le_pos; lra|lra]. }
    destruct (tiny M M M M) as (T2 & _); try lra.
    assert (T1 : pow2 (-1074) <= z1).
    { apply (Rle_trans _ (u * L / 2)).
      - assert (T4 : pow2 (-1074) <= u * pow2 (-201)) by (unfold u; rewrite <- p2_add; apply p2_le; lia).
        assert (T5 : pow2 (-201) = pow2 (-200) / 2).
        { assert (T6 : pow2 (-200) = pow2 1 * pow2 (-201)) by (rewrite <- p2_add; f_equal). rewrite p2_1 in T6. lra. }
        assert (u * pow2 (-201) <= u * (L / 2)) by (apply Rmult_le_compat_l; lra). lra.
      - unfold z1. apply (Rmult_le_reg_r delta); [lra|]. unfold Rdiv at 2. rewrite Rmult_assoc, Rinv_l by lra.
        assert (L * K <= Q) by (unfold K, Q; rewrite <- Rmult_assoc; apply Rmult_le_compat; try lra; [apply Rmult_le_pos; lra|apply Rmult_le_compat_l; lra]).
        assert (u * L * delta <= u * L * (2 * K)) by (apply Rmult_le_compat_l; [apply Rmult_le_pos; lra|lra]).
        assert (u * (L * K) <= u * Q) by (apply Rmult_le_compat_l; lra). lra. }
    assert (BIG : Rabs (nf / df) <= pow2 1000).
    { unfold Rdiv. rewrite Rabs_mult, Rabs_inv.
      assert (N1 : Rabs nf <= 5 * Q).
      { replace nf with (n + (nf - n)) by ring. eapply Rle_trans; [apply Rabs_triang|]. lra. }
      apply (Rle_trans _ (5 * Q * (2 / delta))); [apply Rmult_le_compat; auto using Rabs_pos; lra|].
      assert (N2 : u * (5 * Q * (2 / delta)) <= M * M / L).
      { replace (u * (5 * Q * (2 / delta))) with (M * M * (10 * u * L / delta)) by (unfold Q; field; lra). unfold Rdiv at 2.
        apply Rmult_le_compat_l; [apply Rmult_le_pos; lra|]. apply (Rmult_le_reg_r (delta * L)); [apply Rmult_lt_0_compat; lra|].
        replace (10 * u * L / delta * (delta * L)) with (10 * (u * K)) by (unfold K; field; lra).
        replace (/ L * (delta * L)) with delta by (field; lra). lra. }
      assert (N3 : M * M / L <= pow2 600).
      { change 600%Z with (200 + 200 + 200)%Z. rewrite !p2_add. unfold Rdiv.
        apply Rmult_le_compat; [apply Rmult_le_pos; lra|apply Rlt_le, Rinv_0_lt_compat; lra|apply Rmult_le_compat; lra|].
        apply (Rmult_le_reg_r L); auto. rewrite Rinv_l by lra. replace 1 with (pow2 200 * pow2 (-200)) by (rewrite <- p2_add; reflexivity).
        apply Rmult_le_compat_l; [apply Rlt_le, p2_pos|auto]. }
      apply (Rmult_le_reg_l u); [lra|]. apply (Rle_trans _ (pow2 600)); [lra|]. unfold u. rewrite <- p2_add. apply p2_le. lia. }
    destruct (div_any f g nf df V W D0 BIG) as (z & Z1 & Z2). exists z. split; [exact Z1|].
    assert (U2 : pow2 (-52) = 2 * u) by (unfold u; change (-52)%Z with (1 + -53)%Z; rewrite p2_add, p2_1; ring). rewrite U2 in Z2.
    assert (AQ : Rabs (nf / df) <= Rabs q + (62 * z1 + 26 * z2)).
    { replace (nf / df) with (q + (nf / df - q)) by ring. eapply Rle_trans; [apply Rabs_triang|]. lra. }
    assert (S1 : 2 * u * Rabs (nf / df) <= 2 * u * Rabs q + / 1000 * (62 * z1 + 26 * z2)).
    { apply (Rle_trans _ (2 * u * (Rabs q + (62 * z1 + 26 * z2)))); [apply Rmult_le_compat_l; lra|].
      assert (2 * u * (62 * z1 + 26 * z2) <= / 1000 * (62 * z1 + 26 * z2)) by (apply Rmult_le_compat_r; lra). lra. }
    assert (S0 : 0 <= 2 * u * Rabs (nf / df)) by (apply Rmult_le_pos; [lra|apply Rabs_pos]).
    assert (S2 : Rmax (2 * u * Rabs (nf / df)) (pow2 (-1074)) <= 2 * u * Rabs q + / 1000 * (62 * z1 + 26 * z2) + z1) by (apply Rmax_lub; lra).
    replace (z - q) with ((z - nf / df) + (nf / df - q)) by ring. eapply Rle_trans; [apply Rabs_triang|].
    replace (u * (64 * Q / delta + 32 * Rabs q * K / delta)) with (64 * z1 + 32 * z2) by (unfold z1, z2; field; lra). lra.
  Qed.
End Error.

(** C234, as far as it holds: for points with coordinates of up to [M] and lines given by
    points up to [L] apart whose directions span at least [delta], the intersection
    computed with doubles is off by at most this.  For the square of 1 m in UTM
    coordinates of [intersection_utm_refuted] the bound is below 0.1 m. *)
Theorem intersection_float : forall (a b c d : point FNum) (A B C D Q : pt) (M L delta : R),
  value_pt a A -> value_pt b B -> value_pt c C -> value_pt d D ->
  pow2 (-200) <= L <= M -> M <= pow2 200 ->
  (forall P, P = A \/ P = B \/ P = C \/ P = D -> Rabs (px P) <= M /\ Rabs (py P) <= M) ->
  Rabs (px B - px A) <= L -> Rabs (py B - py A) <= L -> Rabs (px D - px C) <= L -> Rabs (py D - py C) <= L ->
  100 * pow2 (-53) * (L * L) <= delta <= Rabs ((px B - px A) * (py D - py C) - (py B - py A) * (px D - px C)) ->
  (px B - px A) * (py Q - py A) - (py B - py A) * (px Q - px A) = 0 ->
  (px D - px C) * (py Q - py C) - (py D - py C) * (px Q - px C) = 0 ->
  exists X Y, is_value (px (p_intersectionOfLines FNum a b c d)) X /\ is_value (py (p_intersectionOfLines FNum a b c d)) Y /\
    Rabs (X - px Q) <= pow2 (-53) * (64 * (L * M * M) / delta + 32 * Rabs (px Q) * (L * L) / delta) /\
    Rabs (Y - py Q) <= pow2 (-53) * (64 * (L * M * M) / delta + 32 * Rabs (py Q) * (L * L) / delta).
Proof.
  intros a b c d A B C D Q M L delta (Ax & Ay & _) (Bx & By & _) (Cx & Cy & _) (Dx & Dy & _) [HL HLM] HM HP L1 L2 L3 L4 [D1 D2] Q1 Q2.
  destruct (HP A) as [MA1 MA2]; auto. destruct (HP B) as [MB1 MB2]; auto. destruct (HP C) as [MC1 MC2]; auto. destruct (HP D) as [MD1 MD2]; auto 6.
  pose proof (e_diff M L HL HLM HM _ _ _ _ Bx Ax L1) as E1. pose proof (e_diff M L HL HLM HM _ _ _ _ By Ay L2) as E2.
  pose proof (e_diff M L HL HLM HM _ _ _ _ Dx Cx L3) as E3. pose proof (e_diff M L HL HLM HM _ _ _ _ Dy Cy L4) as E4.
  destruct (e_den M L HL HLM HM _ _ _ _ _ _ _ _ E1 E2 E3 E4) as [N1 N2]; auto.
  destruct (e_det M L HL HLM HM _ _ _ _ _ _ _ _ Bx By Ax Ay) as [F1 F2]; auto.
  destruct (e_det M L HL HLM HM _ _ _ _ _ _ _ _ Dx Dy Cx Cy) as [F3 F4]; auto.
  destruct (e_num M L HL HLM HM _ _ _ _ _ _ _ _ E1 E3 F1 F3) as [G1 G2]; auto.
  destruct (e_num M L HL HLM HM _ _ _ _ _ _ _ _ E2 E4 F1 F3) as [G3 G4]; auto.
  destruct (e_quot M L HL HLM HM _ _ _ _ (px Q) delta G1 N1 G2 N2 D2 D1) as ((dv & V1 & V2) & X & X1 & X2).
  { refine (_ : @eq R _ _). apply Rminus_diag_uniq. transitivity ((px D - px C) * ((px B - px A) * (py Q - py A) - (py B - py A) * (px Q - px A)) - (px B - px A) * ((px D - px C) * (py Q - py C) - (py D - py C) * (px Q - px C))); [ring|rewrite Q1, Q2; ring]. }
  destruct (e_quot M L HL HLM HM _ _ _ _ (py Q) delta G3 N1 G4 N2 D2 D1) as (_ & Y & Y1 & Y2).
  { refine (_ : @eq R _ _). apply Rminus_diag_uniq. transitivity ((py D - py C) * ((px B - px A) * (py Q - py A) - (py B - py A) * (px Q - px A)) - (py B - py A) * ((px D - px C) * (py Q - py C) - (py D - py C) * (px Q - px C))); [ring|rewrite Q1, Q2; ring]. }
  exists X, Y. unfold p_intersectionOfLines, p_divs, p_sub, p_scale, p_det. cbn [px py pz].
  match goal with |- context [neqb FNum ?f ?z] => assert (Z0 : neqb FNum f z = false) by exact (eqb_zero _ _ V1 V2); rewrite Z0 end.
  cbn [px py]. split; [exact X1|]. split; [exact Y1|]. split; [exact X2|exact Y2].
Qed.
Print Assumptions intersection_float.

(** The square in UTM coordinates. *)
Example intersection_float_ex : exists (A B C D Q : pt),
  value_pt utm_a A /\ value_pt utm_b B /\ value_pt utm_c C /\ value_pt utm_d D /\
  pow2 (-200) <= 1 <= 5000000 /\ 5000000 <= pow2 200 /\
  (forall P, P = A \/ P = B \/ P = C \/ P = D -> Rabs (px P) <= 5000000 /\ Rabs (py P) <= 5000000) /\
  Rabs (px B - px A) <= 1 /\ Rabs (py B - py A) <= 1 /\ Rabs (px D - px C) <= 1 /\ Rabs (py D - py C) <= 1 /\
  100 * pow2 (-53) * (1 * 1) <= 2 <= Rabs ((px B - px A) * (py D - py C) - (py B - py A) * (px D - px C)) /\
  (px B - px A) * (py Q - py A) - (py B - py A) * (px Q - px A) = 0 /\
  (px D - px C) * (py Q - py C) - (py D - py C) * (px Q - px C) = 0 /\
  pow2 (-53) * (64 * (1 * 5000000 * 5000000) / 2 + 32 * Rabs (px Q) * (1 * 1) / 2) < / 10.
Proof.
  pose (x0 := 1 * IZR 8589936309986918 * pow2 (-34)). pose (x1 := 1 * IZR 8589953489856102 * pow2 (-34)).
  pose (y0 := 1 * IZR 4939212497774182 * pow2 (-30)). pose (y1 := 1 * IZR 4939213571516006 * pow2 (-30)).
  exists (mkPoint (N := RNum) x0 y0 0), (mkPoint (N := RNum) x1 y1 0), (mkPoint (N := RNum) x1 y0 0), (mkPoint (N := RNum) x0 y1 0).
  exists (mkPoint (N := RNum) ((x0 + x1) / 2) ((y0 + y1) / 2) 0).
  assert (V : forall f v x, Prim2SF f = v -> sf_value v x -> is_value f x) by (intros f v x E H; unfold is_value; now rewrite E).
  assert (X0 : is_value 0x1.e848066666666p+18%float x0) by (apply V with (S754_finite false 8589936309986918 (-34)); [vm_compute; reflexivity|reflexivity]).
  assert (X1 : is_value 0x1.e848466666666p+18%float x1) by (apply V with (S754_finite false 8589953489856102 (-34)); [vm_compute; reflexivity|reflexivity]).
  assert (Y0 : is_value 0x1.18c3006666666p+22%float y0) by (apply V with (S754_finite false 4939212497774182 (-30)); [vm_compute; reflexivity|reflexivity]).
  assert (Y1 : is_value 0x1.18c3046666666p+22%float y1) by (apply V with (S754_finite false 4939213571516006 (-30)); [vm_compute; reflexivity|reflexivity]).
  assert (Z0 : is_value 0%float 0) by (apply V with (S754_zero false); [vm_compute; reflexivity|reflexivity]).
  assert (HX : x1 - x0 = 1) by (unfold x1, x0; rewrite pow34; lra).
  assert (HY : y1 - y0 = 1) by (unfold y1, y0; rewrite pow30; lra).
  assert (BX : 500000 <= x0 <= 500001) by (unfold x0; rewrite pow34; lra).
  assert (BY : 4600000 <= y0 <= 4600001) by (unfold y0; rewrite pow30; lra).
  assert (P1 : pow2 (-200) <= 1) by (replace 1 with (pow2 0) by reflexivity; apply p2_le; lia).
  assert (P2 : 5000000 <= pow2 200) by (apply (Rle_trans _ (pow2 23)); [rewrite (p2_IZR 23) by lia; change (2 ^ 23)%Z with 8388608%Z; lra|apply p2_le; lia]).
  assert (U : 9007199254740992 * pow2 (-53) = 1) by (change 9007199254740992 with (IZR (2 ^ 53)); rewrite <- p2_IZR by lia; rewrite <- p2_add; reflexivity).
  clearbody x0 x1 y0 y1.
  assert (x1 = x0 + 1) as -> by lra. assert (y1 = y0 + 1) as -> by lra.
  split; [split; [|split]; assumption|]. split; [split; [|split]; assumption|]. split; [split; [|split]; assumption|]. split; [split; [|split]; assumption|].
  split; [lra|]. split; [lra|]. cbn [px py].
  split. { intros P [-> | [-> | [-> | ->]]]; cbn [px py]; split; rewrite Rabs_right; lra. }
  split; [apply Rabs_le; lra|]. split; [apply Rabs_le; lra|]. split; [apply Rabs_le; lra|]. split; [apply Rabs_le; lra|].
  split. { split; [lra|]. rewrite Rabs_right; lra. }
  split; [refine (_ : @eq R _ _); field|]. split; [refine (_ : @eq R _ _); field|].
  rewrite Rabs_right by lra.
  assert (pow2 (-53) * (64 * (1 * 5000000 * 5000000) / 2 + 32 * ((x0 + (x0 + 1)) / 2) * (1 * 1) / 2) <= pow2 (-53) * 801000000000000) by (apply Rmult_le_compat_l; lra). lra.
Qed.
