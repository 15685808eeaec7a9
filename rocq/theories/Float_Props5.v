(** The closest point of a segment whose ends are one point, in double precision. *)
From Coq Require Import ZArith Bool Lia Reals Lra Floats SpecFloat FloatAxioms.
From Verif Require Import Num Point_Model Angle_Spec Codec_Spec Float_Props Float_Props2 Float_Props4.
Local Open Scope R_scope.

(** Specification: a zero of either sign, and a zero or no number. *)
Definition is_nil (f : float) : Prop := exists b, Prim2SF f = S754_zero b.
Definition nil_or_nan (f : float) : Prop := is_nil f \/ Prim2SF f = S754_nan.

Lemma self_sub f x : is_value f x -> is_nil (f - f)%float.
Proof.
  unfold is_value, is_nil. intro V. rewrite sub_spec. unfold SF64sub. destruct (Prim2SF f) as [s|s| |s m k]; cbn [sf_value] in V; try contradiction.
  - destruct s; eexists; reflexivity.
  - unfold SFsub. rewrite Z.sub_diag. eexists; reflexivity.
Qed.

Lemma nil_times f g : is_nil f -> nil_or_nan (f * g)%float.
Proof.
  intros (b & H). unfold nil_or_nan, is_nil. rewrite mul_spec, H. unfold SF64mul, SFmul. destruct (Prim2SF g); eauto.
Qed.
Lemma nil_nil f g : is_nil f -> is_nil g -> is_nil (f * g)%float.
Proof. intros (b & H) (c & G). unfold is_nil. rewrite mul_spec, H, G. unfold SF64mul, SFmul. eauto. Qed.
Lemma nil_plus f g : is_nil f -> is_nil g -> is_nil (f + g)%float.
Proof. intros (b & H) (c & G). unfold is_nil. rewrite add_spec, H, G. unfold SF64add, SFadd. destruct (Bool.eqb b c); eauto. Qed.
Lemma non_plus f g : nil_or_nan f -> nil_or_nan g -> nil_or_nan (f + g)%float.
Proof.
  intros [F|F] [G|G]; [left; apply nil_plus; auto| | |]; right; rewrite add_spec.
  - destruct F as (b & ->). rewrite G. reflexivity.
  - rewrite F. destruct G as (b & ->). reflexivity.
  - rewrite F, G. reflexivity.
Qed.
Lemma non_quotient f g : nil_or_nan f -> is_nil g -> Prim2SF (- f / g)%float = S754_nan.
Proof. intros F (c & G). rewrite div_spec, opp_spec, G. destruct F as [(b & ->) | -> ]; reflexivity. Qed.
Lemma nil_add f g x : is_nil f -> is_value g x -> is_value (f + g)%float x.
Proof.
  intros (b & F) V. unfold is_value in *. rewrite add_spec, F. unfold SF64add, SFadd. destruct (Prim2SF g) as [s|s| |s m k] eqn:G; cbn [sf_value] in V |- *; try contradiction.
  - destruct (Bool.eqb b s); exact V.
  - exact V.
Qed.
Lemma nil_one f : is_nil f -> is_nil (f * nofZ FNum 1)%float.
Proof.
  intros (b & H). unfold is_nil. rewrite mul_spec, H. replace (Prim2SF (nofZ FNum 1)) with (S754_finite false 4503599627370496 (-52)) by (vm_compute; reflexivity).
  unfold SF64mul, SFmul. eauto.
Qed.

(** C320: with both ends at one point, Point.cpp:169-175 divides zero by zero, and the result
    is still that point, exactly, for every point it is asked for - even one that is not finite. *)
Theorem closest_one_point_float : forall (p s : point FNum) (S : pt), value_pt s S ->
  value_pt (p_closestPointInSegment FNum p s s) S.
Proof.
  intros p s S (S1 & S2 & S3).
  pose proof (self_sub _ _ S1) as Z1. pose proof (self_sub _ _ S2) as Z2. pose proof (self_sub _ _ S3) as Z3.
  assert (T : Prim2SF (- ((px s - px s) * (px s - px p) + (py s - py s) * (py s - py p) + (pz s - pz s) * (pz s - pz p)) /
    ((px s - px s) * (px s - px s) + (py s - py s) * (py s - py s) + (pz s - pz s) * (pz s - pz s)))%float = S754_nan).
  { apply non_quotient; [repeat apply non_plus; apply nil_times; assumption|repeat apply nil_plus; apply nil_nil; assumption]. }
  unfold p_closestPointInSegment.
  assert (C : std_max FNum (nofZ FNum 0) (std_min FNum (nofZ FNum 1) (nopp FNum (p_dot FNum (p_sub FNum s s) (p_sub FNum s p)) / p_dot FNum (p_sub FNum s s) (p_sub FNum s s))%float) = nofZ FNum 1).
  { unfold std_min.
    match goal with |- context [nltb FNum ?a (nofZ FNum 1)] => assert (Q : nltb FNum a (nofZ FNum 1) = false); [change (nltb FNum a (nofZ FNum 1)) with (a <? nofZ FNum 1)%float; rewrite ltb_spec; replace (Prim2SF a) with S754_nan by (symmetry; exact T); reflexivity|rewrite Q] end.
    vm_compute. reflexivity. }
  split; [|split]; (match goal with |- is_value ?q _ => let h := eval cbn [px py pz p_add p_scale p_sub] in q in change q with h end).
  - unfold p_add, p_scale. cbn [px py pz]. refine (nil_add _ _ _ _ S1).
    refine (eq_ind_r (fun c => is_nil ((px s - px s) * c)%float) (nil_one _ Z1) C).
  - unfold p_add, p_scale. cbn [px py pz]. refine (nil_add _ _ _ _ S2).
    refine (eq_ind_r (fun c => is_nil ((py s - py s) * c)%float) (nil_one _ Z2) C).
  - unfold p_add, p_scale. cbn [px py pz]. refine (nil_add _ _ _ _ S3).
    refine (eq_ind_r (fun c => is_nil ((pz s - pz s) * c)%float) (nil_one _ Z3) C).
Qed.
Print Assumptions closest_one_point_float.

(* Not vacuous: from infinity to the segment from (1, 0) to (1, 0). *)
Example closest_one_point_float_ex : exists (p s : point FNum) (S : pt), value_pt s S /\ px S <> 0 /\ px p = infinity /\ px (p_closestPointInSegment FNum p s s) = 1%float.
Proof.
  exists (mkPoint (N := FNum) infinity 0%float 0%float), (mkPoint (N := FNum) 1%float 0%float 0%float), (mkPoint (N := RNum) 1 0 0).
  split; [split; [exact one_value|split; exact nil_value]|]. cbn [px]. split; [lra|]. split; [reflexivity|vm_compute; reflexivity].
Qed.
