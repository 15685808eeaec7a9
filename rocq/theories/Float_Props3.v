(** How far a point turned about another is off in double precision. *)
From Coq Require Import ZArith Bool Lia Reals Lra Psatz Floats SpecFloat FloatAxioms.
From Verif Require Import Num Point_Model Angle_Spec Codec_Spec Codec_Proofs3 FloatErr_Proofs FloatErr_Proofs2 Float_Props Float_Props2.
Local Open Scope R_scope.

Lemma approx_add f g x y ex ey b : approx f x ex -> approx g y ey -> Rabs (x + y) + ex + ey <= b -> b <= pow2 1000 ->
  approx (f + g)%float (x + y) (ex + ey + pow2 (-53) * b).
Proof.
  intros (v & V & EV) (w & W & EW) B1 B2.
  assert (D : Rabs (v + w - (x + y)) <= ex + ey).
  { replace (v + w - (x + y)) with ((v - x) + (w - y)) by ring. eapply Rle_trans; [apply Rabs_triang|]. lra. }
  assert (S : Rabs (v + w) <= b).
  { replace (v + w) with ((x + y) + (v + w - (x + y))) by ring. eapply Rle_trans; [apply Rabs_triang|]. lra. }
  destruct (add_ok f g v w V W) as (z & Z1 & Z2); [lra|].
  exists z. split; auto. replace (z - (x + y)) with ((z - (v + w)) + (v + w - (x + y))) by ring. eapply Rle_trans; [apply Rabs_triang|].
  assert (pow2 (-53) * Rabs (v + w) <= pow2 (-53) * b) by (apply Rmult_le_compat_l; [apply Rlt_le, p2_pos|auto]). lra.
Qed.

Section Turn.
  Variables (M L : R).
  Hypothesis HL : 1 <= L.
  Hypothesis HM : 1 <= M.
  Hypothesis HB : M + L <= pow2 200.
  Let u : R := pow2 (-53).

  Lemma turn_product f g x c : approx f x (u * L) -> approx g c (2 * u) -> Rabs x <= L -> Rabs c <= 1 -> approx (f * g)%float (x * c) (5 * u * L).
  Proof.
    intros F G BX BC. pose proof uv as U. fold u in U. pose proof (p2_pos (-53)) as P. fold u in P.
    assert (UL : 0 <= u * L <= / 1000000 * L) by (split; [apply Rmult_le_pos; lra|apply Rmult_le_compat_r; lra]).
    assert (UUL : 0 <= u * (u * L) <= / 1000000 * (u * L)) by (split; [apply Rmult_le_pos; lra|apply Rmult_le_compat_r; lra]).
    assert (UUU : 0 <= u * (u * (u * L)) <= / 1000000 * (u * (u * L))) by (split; [apply Rmult_le_pos; lra|apply Rmult_le_compat_r; lra]).
    assert (T : pow2 (-1075) <= / 1000000 * (u * L)).
    { assert (T1 : pow2 (-1075) <= pow2 (-100)) by (apply p2_le; lia).
      assert (T2 : pow2 (-100) = u * pow2 (-47)) by (unfold u; rewrite <- p2_add; reflexivity).
      assert (T3 : 140737488355328 * pow2 (-47) = 1) by (change 140737488355328 with (IZR (2 ^ 47)); rewrite <- p2_IZR by lia; rewrite <- p2_add; reflexivity).
      assert (T4 : u * pow2 (-47) <= u * (/ 1000000 * L)) by (apply Rmult_le_compat_l; lra). lra. }
    assert (P2 : 2 * pow2 200 <= pow2 1000) by (apply (Rle_trans _ (pow2 201)); [change 201%Z with (1 + 200)%Z; rewrite p2_add, p2_1; lra|apply p2_le; lia]).
    eapply approx_weaken; [apply (approx_mul f g x c (u * L) (2 * u) L 1 F G ltac:(lra) ltac:(lra) BX BC)|]; [|fold u]; lra.
  Qed.

  Lemma turn_coordinate (f g h k t : float) x y c s a : approx f x (u * L) -> approx g c (2 * u) -> approx h y (u * L) -> approx k s (2 * u) ->
    Rabs x <= L -> Rabs y <= L -> Rabs c <= 1 -> Rabs s <= 1 -> is_value t a -> Rabs a <= M ->
    approx (f * g - h * k + t)%float (x * c - y * s + a) (u * (16 * L + M)) /\ approx (f * g + h * k + t)%float (x * c + y * s + a) (u * (16 * L + M)).
  Proof.
    intros F G H K BX BY BC BS T BA. pose proof uv as U. fold u in U. pose proof (p2_pos (-53)) as P. fold u in P.
    pose proof (turn_product f g x c F G BX BC) as P1. pose proof (turn_product h k y s H K BY BS) as P2.
    assert (UL : 0 <= u * L <= / 1000000 * L) by (split; [apply Rmult_le_pos; lra|apply Rmult_le_compat_r; lra]).
    assert (UUL : 0 <= u * (u * L) <= / 1000000 * (u * L)) by (split; [apply Rmult_le_pos; lra|apply Rmult_le_compat_r; lra]).
    assert (Q1 : Rabs (x * c) <= L) by (rewrite Rabs_mult; replace L with (L * 1) by ring; apply Rmult_le_compat; auto using Rabs_pos).
    assert (Q2 : Rabs (y * s) <= L) by (rewrite Rabs_mult; replace L with (L * 1) by ring; apply Rmult_le_compat; auto using Rabs_pos).
    assert (BP : 4 * pow2 200 <= pow2 1000) by (apply (Rle_trans _ (pow2 202)); [change 202%Z with (2 + 200)%Z; rewrite p2_add, (p2_IZR 2) by lia; simpl; lra|apply p2_le; lia]).
    apply abs_le in Q1. apply abs_le in Q2. pose proof BA as BA'. apply abs_le in BA'.
    split.
    - assert (S : approx (f * g - h * k)%float (x * c - y * s) (13 * u * L)).
      { assert (R : Rabs (x * c - y * s) <= 2 * L) by (apply Rabs_le; lra).
        eapply approx_weaken; [apply (approx_sub _ _ _ _ _ _ (3 * L) P1 P2); lra|fold u; lra]. }
      assert (R : Rabs (x * c - y * s + a) <= 2 * L + M) by (apply Rabs_le; lra).
      eapply approx_weaken; [apply (approx_add _ _ _ _ _ _ (M + 3 * L) S (approx_exact _ _ T)); lra|fold u; lra].
    - assert (S : approx (f * g + h * k)%float (x * c + y * s) (13 * u * L)).
      { assert (R : Rabs (x * c + y * s) <= 2 * L) by (apply Rabs_le; lra).
        eapply approx_weaken; [apply (approx_add _ _ _ _ _ _ (3 * L) P1 P2); lra|fold u; lra]. }
      assert (R : Rabs (x * c + y * s + a) <= 2 * L + M) by (apply Rabs_le; lra).
      eapply approx_weaken; [apply (approx_add _ _ _ _ _ _ (M + 3 * L) S (approx_exact _ _ T)); lra|fold u; lra].
  Qed.
End Turn.

(** C319: turning a point about a centre, Point.cpp:121-130, is off by at most
    2^-53 (16 L + M) in each coordinate, when the centre's coordinates are at most M, the
    point is within L of it along each axis, and sine and cosine are right to 2^-52. *)
Theorem turn_float : forall (cf sf : float) (theta M L : R) (o p : point FNum) (O P : pt),
  value_pt o O -> value_pt p P -> approx cf (cos theta) (2 * pow2 (-53)) -> approx sf (sin theta) (2 * pow2 (-53)) ->
  1 <= L -> 1 <= M -> M + L <= pow2 200 -> Rabs (px O) <= M -> Rabs (py O) <= M -> Rabs (px P - px O) <= L -> Rabs (py P - py O) <= L ->
  approx (px (p_rotateFromPoint FNum cf sf o p)) (px O + (px P - px O) * cos theta - (py P - py O) * sin theta) (pow2 (-53) * (16 * L + M)) /\
  approx (py (p_rotateFromPoint FNum cf sf o p)) (py O + (px P - px O) * sin theta + (py P - py O) * cos theta) (pow2 (-53) * (16 * L + M)).
Proof.
  intros cf sf theta M L o p O P (O1 & O2 & _) (P1 & P2 & _) C S HL HM HB BX BY DX DY.
  assert (BC : Rabs (cos theta) <= 1) by (apply Rabs_le, COS_bound). assert (BS : Rabs (sin theta) <= 1) by (apply Rabs_le, SIN_bound).
  assert (L1 : L <= pow2 1000) by (apply (Rle_trans _ (pow2 200)); [lra|apply p2_le; lia]).
  assert (X : approx (px p - px o)%float (px P - px O) (pow2 (-53) * L)).
  { eapply approx_weaken; [apply (approx_sub _ _ _ _ 0 0 L (approx_exact _ _ P1) (approx_exact _ _ O1)); lra|lra]. }
  assert (Y : approx (py p - py o)%float (py P - py O) (pow2 (-53) * L)).
  { eapply approx_weaken; [apply (approx_sub _ _ _ _ 0 0 L (approx_exact _ _ P2) (approx_exact _ _ O2)); lra|lra]. }
  split.
  - destruct (turn_coordinate M L HL HM HB _ _ _ _ (px o) _ _ _ _ (px O) X C Y S DX DY BC BS O1 BX) as [A _].
    replace (px O + (px P - px O) * cos theta - (py P - py O) * sin theta) with ((px P - px O) * cos theta - (py P - py O) * sin theta + px O) by ring. exact A.
  - destruct (turn_coordinate M L HL HM HB _ _ _ _ (py o) _ _ _ _ (py O) X S Y C DX DY BS BC O2 BY) as [_ A].
    replace (py O + (px P - px O) * sin theta + (py P - py O) * cos theta) with ((px P - px O) * sin theta + (py P - py O) * cos theta + py O) by ring. exact A.
Qed.
Print Assumptions turn_float.

(** A quarter turn about (4, 4), with the cosine that the library returns for it. *)
Example turn_float_ex : exists cf sf o p O P, value_pt o O /\ value_pt p P /\
  approx cf (cos (PI / 2)) (2 * pow2 (-53)) /\ approx sf (sin (PI / 2)) (2 * pow2 (-53)) /\ 4 + 1 <= pow2 200 /\
  Rabs (px O) <= 4 /\ Rabs (py O) <= 4 /\ Rabs (px P - px O) <= 1 /\ Rabs (py P - py O) <= 1 /\ px P <> px O /\
  py (p_rotateFromPoint FNum cf sf o p) = 5%float.
Proof.
  assert (V0 : is_value 0%float 0) by (unfold is_value; replace (Prim2SF 0) with (S754_zero false) by (vm_compute; reflexivity); reflexivity).
  assert (K : forall k, (0 <= k)%Z -> IZR (2 ^ k) * pow2 (- k) = 1) by (intros k H; rewrite <- p2_IZR by auto; rewrite <- p2_add; replace (k + - k)%Z with 0%Z by lia; reflexivity).
  assert (V1 : is_value 1%float 1).
  { unfold is_value. replace (Prim2SF 1) with (S754_finite false 4503599627370496 (-52)) by (vm_compute; reflexivity). unfold sf_value. pose proof (K 52%Z ltac:(lia)) as Q. change (2 ^ 52)%Z with 4503599627370496%Z in Q. change (-52)%Z with (- (52))%Z. lra. }
  assert (V4 : is_value 4%float 4).
  { unfold is_value. replace (Prim2SF 4) with (S754_finite false 4503599627370496 (-50)) by (vm_compute; reflexivity). unfold sf_value. pose proof (K 50%Z ltac:(lia)) as Q. change (2 ^ 50)%Z with 1125899906842624%Z in Q. change (-50)%Z with (- (50))%Z. lra. }
  assert (V5 : is_value 5%float 5).
  { unfold is_value. replace (Prim2SF 5) with (S754_finite false 5629499534213120 (-50)) by (vm_compute; reflexivity). unfold sf_value. pose proof (K 50%Z ltac:(lia)) as Q. change (2 ^ 50)%Z with 1125899906842624%Z in Q. change (-50)%Z with (- (50))%Z. lra. }
  exists 0x1.1a62633145c07p-54%float, 1%float, (mkPoint (N := FNum) 4%float 4%float 0%float), (mkPoint (N := FNum) 5%float 4%float 0%float), (mkPoint (N := RNum) 4 4 0), (mkPoint (N := RNum) 5 4 0).
  rewrite cos_PI2, sin_PI2. cbn [px py].
  split; [split; [|split]; assumption|]. split; [split; [|split]; assumption|].
  split.
  { exists (4967757600021511 * pow2 (-106)). split.
    - unfold is_value. replace (Prim2SF 0x1.1a62633145c07p-54) with (S754_finite false 4967757600021511 (-106)) by (vm_compute; reflexivity). unfold sf_value. ring.
    - assert (E : pow2 (-53) = 9007199254740992 * pow2 (-106)) by (change 9007199254740992 with (IZR (2 ^ 53)); rewrite <- p2_IZR by lia; rewrite <- p2_add; reflexivity).
      pose proof (p2_pos (-106)). rewrite Rabs_right; lra. }
  split; [eapply approx_weaken; [apply approx_exact, V1|pose proof (p2_pos (-53)); lra]|].
  split; [apply (Rle_trans _ (pow2 3)); [rewrite (p2_IZR 3) by lia; simpl; lra|apply p2_le; lia]|].
  split; [rewrite Rabs_right; lra|]. split; [rewrite Rabs_right; lra|]. split; [rewrite Rabs_right; lra|]. split; [rewrite Rabs_right; lra|].
  split; [lra|]. vm_compute. reflexivity.
Qed.

(** C319: going a distance of at most L in a direction, Point.cpp:145-147. *)
Theorem step_float : forall (cf sf d : float) (theta D M L : R) (o : point FNum) (O : pt),
  value_pt o O -> is_value d D -> approx cf (cos theta) (2 * pow2 (-53)) -> approx sf (sin theta) (2 * pow2 (-53)) ->
  1 <= L -> 1 <= M -> M + L <= pow2 200 -> Rabs (px O) <= M -> Rabs (py O) <= M -> Rabs D <= L ->
  approx (px (p_getPointFromAngle FNum cf sf o d)) (px O + D * cos theta) (pow2 (-53) * (7 * L + M)) /\
  approx (py (p_getPointFromAngle FNum cf sf o d)) (py O + D * sin theta) (pow2 (-53) * (7 * L + M)).
Proof.
  intros cf sf d theta D M L o O (O1 & O2 & _) VD C S HL HM HB BX BY DL.
  assert (BC : Rabs (cos theta) <= 1) by (apply Rabs_le, COS_bound). assert (BS : Rabs (sin theta) <= 1) by (apply Rabs_le, SIN_bound).
  pose proof uv as U. pose proof (p2_pos (-53)) as P. set (u := pow2 (-53)) in *.
  assert (UL : 0 <= u * L <= / 1000000 * L) by (split; [apply Rmult_le_pos; lra|apply Rmult_le_compat_r; lra]).
  assert (VD' : approx d D (u * L)) by (eapply approx_weaken; [apply approx_exact, VD|lra]).
  assert (BP : 4 * pow2 200 <= pow2 1000) by (apply (Rle_trans _ (pow2 202)); [change 202%Z with (2 + 200)%Z; rewrite p2_add, (p2_IZR 2) by lia; simpl; lra|apply p2_le; lia]).
  assert (G : forall (g t : float) c a, approx g c (2 * u) -> Rabs c <= 1 -> is_value t a -> Rabs a <= M -> approx (t + d * g)%float (a + D * c) (u * (7 * L + M))).
  { intros g t c a Gg Bc T Ba. pose proof (turn_product M L HL HM HB d g D c VD' Gg DL Bc) as Q.
    assert (Q1 : Rabs (D * c) <= L) by (rewrite Rabs_mult; replace L with (L * 1) by ring; apply Rmult_le_compat; auto using Rabs_pos).
    apply abs_le in Q1. apply abs_le in Ba. assert (R : Rabs (a + D * c) <= M + L) by (apply Rabs_le; lra).
    eapply approx_weaken; [apply (approx_add _ _ _ _ _ _ (M + 2 * L) (approx_exact _ _ T) Q); fold u; lra|fold u; lra]. }
  split; apply G; auto.
Qed.
Print Assumptions step_float.

Example step_float_ex : exists cf sf d o O D, value_pt o O /\ is_value d D /\ approx cf (cos 0) (2 * pow2 (-53)) /\ approx sf (sin 0) (2 * pow2 (-53)) /\
  1 + 1 <= pow2 200 /\ Rabs (px O) <= 1 /\ Rabs (py O) <= 1 /\ Rabs D <= 1 /\ D <> 0.
Proof.
  assert (V0 : is_value 0%float 0) by (unfold is_value; replace (Prim2SF 0) with (S754_zero false) by (vm_compute; reflexivity); reflexivity).
  assert (V1 : is_value 1%float 1).
  { unfold is_value. replace (Prim2SF 1) with (S754_finite false 4503599627370496 (-52)) by (vm_compute; reflexivity). unfold sf_value.
    assert (Q : IZR (2 ^ 52) * pow2 (-52) = 1) by (rewrite <- p2_IZR by lia; rewrite <- p2_add; reflexivity). change (2 ^ 52)%Z with 4503599627370496%Z in Q. lra. }
  exists 1%float, 0%float, 1%float, (mkPoint (N := FNum) 1%float 0%float 0%float), (mkPoint (N := RNum) 1 0 0), 1.
  rewrite cos_0, sin_0. cbn [px py]. pose proof (p2_pos (-53)).
  split; [split; [|split]; assumption|]. split; [exact V1|]. split; [eapply approx_weaken; [apply approx_exact, V1|lra]|].
  split; [eapply approx_weaken; [apply approx_exact, V0|lra]|].
  split; [apply (Rle_trans _ (pow2 3)); [rewrite (p2_IZR 3) by lia; simpl; lra|apply p2_le; lia]|].
  rewrite Rabs_R1, Rabs_R0. repeat split; lra.
Qed.
