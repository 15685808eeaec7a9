(** When two points are equal in double precision. *)
From Coq Require Import ZArith Bool Lia Reals Lra Psatz Floats SpecFloat FloatAxioms.
From Verif Require Import Num Point_Model Angle_Spec Codec_Spec Codec_Proofs Codec_Proofs3 FloatErr_Proofs FloatErr_Proofs2 FloatErr_Proofs5 Angle_Props3 Float_Props Float_Props4.
Local Open Scope R_scope.

(** Specification: the double nearest to 1e-7. *)
Definition tolerance : R := 7555786372591432 * pow2 (-76).

Lemma tolerance_value : is_value (p_eps FNum) tolerance.
Proof. unfold is_value. replace (Prim2SF (p_eps FNum)) with (S754_finite false 7555786372591432 (-76)) by (vm_compute; reflexivity). unfold sf_value, tolerance. ring. Qed.

Lemma not_rounded_below z v : fits z -> tolerance <= v -> Rabs (z - v) <= pow2 (-53) * v -> tolerance <= z.
Proof.
  intros F B E. apply Rnot_lt_le. intro LT. pose proof (p2_pos (-76)) as P. pose proof (p2_pos (-53)) as P53.
  assert (U : 9007199254740992 * pow2 (-53) = 1) by (change 9007199254740992 with (IZR (2 ^ 53)); rewrite <- p2_IZR by lia; rewrite <- p2_add; reflexivity).
  assert (G : z <= tolerance - pow2 (-76)).
  { destruct (Rle_lt_dec (pow2 (-24)) z) as [H|H].
    - destruct (coarse z (-24) F H) as (I & EI). change (-24 - 52)%Z with (-76)%Z in EI. unfold tolerance in *. rewrite EI in LT. apply Rmult_lt_reg_r in LT; auto.
      apply lt_IZR in LT. assert (I + 1 <= 7555786372591432)%Z by lia. apply IZR_le in H0. rewrite plus_IZR in H0.
      assert ((IZR I + 1) * pow2 (-76) <= 7555786372591432 * pow2 (-76)) by (apply Rmult_le_compat_r; lra). lra.
    - replace (pow2 (-24)) with (IZR (2 ^ 52) * pow2 (-76)) in H by (rewrite <- p2_IZR by lia; rewrite <- p2_add; reflexivity). change (2 ^ 52)%Z with 4503599627370496%Z in H. unfold tolerance. lra. }
  apply abs_le in E. assert (T : pow2 (-53) * tolerance < pow2 (-76)).
  { unfold tolerance. assert (7555786372591432 * pow2 (-53) < 1) by lra. replace (pow2 (-53) * (7555786372591432 * pow2 (-76))) with (7555786372591432 * pow2 (-53) * pow2 (-76)) by ring. rewrite <- (Rmult_1_l (pow2 (-76))) at 2. apply Rmult_lt_compat_r; auto. }
  assert (pow2 (-53) * (v - tolerance) <= 1 * (v - tolerance)) by (apply Rmult_le_compat_r; lra). lra.
Qed.

Lemma near_float f g x y : is_value f x -> is_value g y -> Rabs (x - y) <= pow2 1000 ->
  ((PrimFloat.abs (f - g) <? p_eps FNum)%float = true -> Rabs (x - y) < tolerance) /\
  (Rabs (x - y) <= tolerance * (1 - pow2 (-53)) -> (PrimFloat.abs (f - g) <? p_eps FNum)%float = true).
Proof.
  intros X Y B. destruct (sub_ok f g x y X Y B) as (z & Z & E). pose proof (ltb_ok _ _ _ _ (abs_value _ _ Z) tolerance_value) as Q.
  pose proof (p2_pos (-53)) as P53. assert (PT : 0 < tolerance) by (unfold tolerance; apply Rmult_lt_0_compat; [lra|apply p2_pos]). split.
  - intro H. apply Q in H. apply Rnot_le_lt. intro C. apply (Rlt_not_le _ _ H).
    apply (not_rounded_below (Rabs z) (Rabs (x - y))); auto.
    + apply (value_fits (PrimFloat.abs (f - g))). apply abs_value, Z.
    + eapply Rle_trans; [apply Rabs_triang_inv2|exact E].
  - intro H. apply Q. assert (Rabs z <= Rabs (x - y) + pow2 (-53) * Rabs (x - y)).
    { replace z with ((x - y) + (z - (x - y))) at 1 by ring. eapply Rle_trans; [apply Rabs_triang|]. lra. }
    assert (Rabs (x - y) * (1 + pow2 (-53)) <= tolerance * (1 - pow2 (-53)) * (1 + pow2 (-53))) by (apply Rmult_le_compat_r; lra).
    assert (0 < tolerance * (pow2 (-53) * pow2 (-53))) by (apply Rmult_lt_0_compat; [exact PT|apply Rmult_lt_0_compat; exact P53]). lra.
Qed.

(** Specification: along every axis the points are less, or at most, d apart. *)
Definition apart_below (A B : pt) (d : R) : Prop := Rabs (px A - px B) < d /\ Rabs (py A - py B) < d /\ Rabs (pz A - pz B) < d.
Definition apart_within (A B : pt) (d : R) : Prop := Rabs (px A - px B) <= d /\ Rabs (py A - py B) <= d /\ Rabs (pz A - pz B) <= d.

(** C321: operator== of Point.cpp:42-46 takes no points for equal that are the tolerance or more
    apart, and misses none that are nearer than it by one part in 2^53. *)
Theorem equal_float : forall (a b : point FNum) (A B : pt), value_pt a A -> value_pt b B -> apart_within A B (pow2 1000) ->
  (p_eq FNum a b = true -> apart_below A B tolerance) /\
  (apart_within A B (tolerance * (1 - pow2 (-53))) -> p_eq FNum a b = true).
Proof.
  intros a b A B (A1 & A2 & A3) (B1 & B2 & B3) (X & Y & Z).
  destruct (near_float _ _ _ _ A1 B1 X) as [X1 X2]. destruct (near_float _ _ _ _ A2 B2 Y) as [Y1 Y2]. destruct (near_float _ _ _ _ A3 B3 Z) as [Z1 Z2]. split.
  - intro H. unfold p_eq in H. apply andb_prop in H. destruct H as [H H3]. apply andb_prop in H. destruct H as [H1 H2]. split; [|split]; auto.
  - intros (W1 & W2 & W3). unfold p_eq. apply andb_true_intro. split; [apply andb_true_intro; split|]; [apply X2|apply Y2|apply Z2]; assumption.
Qed.
Print Assumptions equal_float.

(** C321: without that part the second half is false: a difference just below the tolerance
    is rounded up to it. *)
Theorem equal_float_margin_needed : exists (a b : point FNum) (A B : pt), value_pt a A /\ value_pt b B /\ apart_below A B tolerance /\ p_eq FNum a b = false.
Proof.
  exists (mkPoint (N := FNum) 0x1.ad7f29abcaf48p-24%float 0%float 0%float), (mkPoint (N := FNum) 0x1p-78%float 0%float 0%float),
    (mkPoint (N := RNum) tolerance 0 0), (mkPoint (N := RNum) (pow2 (-78)) 0 0).
  split; [split; [exact tolerance_value|split; exact nil_value]|].
  assert (V : is_value 0x1p-78%float (pow2 (-78))).
  { unfold is_value. replace (Prim2SF 0x1p-78) with (S754_finite false 4503599627370496 (-130)) by (vm_compute; reflexivity). unfold sf_value.
    replace (-78)%Z with (52 + -130)%Z by lia. rewrite p2_add, (p2_IZR 52) by lia. change (2 ^ 52)%Z with 4503599627370496%Z. ring. }
  split; [split; [exact V|split; exact nil_value]|].
  split; [|vm_compute; reflexivity]. unfold apart_below. cbn [px py pz].
  pose proof (p2_pos (-78)) as P. assert (T : tolerance = 30223145490365728 * pow2 (-78)).
  { unfold tolerance. replace (-76)%Z with (2 + -78)%Z by lia. rewrite p2_add, (p2_IZR 2) by lia. change (2 ^ 2)%Z with 4%Z. ring. }
  rewrite Rminus_0_r, Rabs_R0, T. split; [rewrite Rabs_right; lra|split; lra].
Qed.
Print Assumptions equal_float_margin_needed.

(* Not vacuous: the points (2^-78, 0) and (0, 0) are within the tolerance. *)
Example equal_float_ex : exists (a b : point FNum) (A B : pt), value_pt a A /\ value_pt b B /\ apart_within A B (pow2 1000) /\
  apart_within A B (tolerance * (1 - pow2 (-53))) /\ px A <> px B.
Proof.
  exists (mkPoint (N := FNum) 0x1p-78%float 0%float 0%float), (mkPoint (N := FNum) 0%float 0%float 0%float),
    (mkPoint (N := RNum) (pow2 (-78)) 0 0), (mkPoint (N := RNum) 0 0 0).
  assert (V : is_value 0x1p-78%float (pow2 (-78))).
  { unfold is_value. replace (Prim2SF 0x1p-78) with (S754_finite false 4503599627370496 (-130)) by (vm_compute; reflexivity). unfold sf_value.
    replace (-78)%Z with (52 + -130)%Z by lia. rewrite p2_add, (p2_IZR 52) by lia. change (2 ^ 52)%Z with 4503599627370496%Z. ring. }
  split; [split; [exact V|split; exact nil_value]|]. split; [split; [exact nil_value|split; exact nil_value]|].
  unfold apart_within. cbn [px py pz]. rewrite !Rminus_0_r, Rabs_R0. pose proof (p2_pos (-78)) as P. rewrite Rabs_right by lra. pose proof (p2_pos 1000).
  assert (L : pow2 (-78) <= pow2 1000) by (apply p2_le; lia).
  assert (T : tolerance = 30223145490365728 * pow2 (-78)).
  { unfold tolerance. replace (-76)%Z with (2 + -78)%Z by lia. rewrite p2_add, (p2_IZR 2) by lia. change (2 ^ 2)%Z with 4%Z. ring. }
  assert (U : 9007199254740992 * pow2 (-53) = 1) by (change 9007199254740992 with (IZR (2 ^ 53)); rewrite <- p2_IZR by lia; rewrite <- p2_add; reflexivity).
  assert (W : pow2 (-78) * 1 <= tolerance * (1 - pow2 (-53))) by (rewrite T, Rmult_assoc, (Rmult_comm _ (_ * _)), Rmult_assoc; apply Rmult_le_compat_l; lra).
  repeat split; lra.
Qed.
