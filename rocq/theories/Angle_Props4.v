(** Normalising what cannot be normalised. *)
From Coq Require Import ZArith Bool Lia Reals Lra Floats SpecFloat FloatAxioms.
From Verif Require Import Codec_Spec Angle_Model2.
Local Open Scope R_scope.

Lemma nan_sf : Prim2SF nan = S754_nan.
Proof. vm_compute. reflexivity. Qed.

Lemma fmod_nan x y : Prim2SF x = S754_nan -> Prim2SF (float_fmod x y) = S754_nan.
Proof. intro H. unfold float_fmod. rewrite H. exact nan_sf. Qed.

Lemma add_nan x y : Prim2SF x = S754_nan -> Prim2SF (x + y) = S754_nan.
Proof. intro H. rewrite FloatAxioms.add_spec, H. reflexivity. Qed.

(** Infinite and undefined angles stay undefined, and so does every angle when the modulus is
    zero, infinite or undefined. *)
Theorem mod_not_finite : forall a b,
  (forall A, ~ is_value a A) \/ (forall B, ~ is_value b B) \/ is_value b 0 -> Prim2SF (float_mod a b) = S754_nan.
Proof.
  intros a b H. unfold float_mod. unfold is_value in H.
  destruct (Prim2SF b) as [sb|sb| |sb mb eb] eqn:EB.
  - apply fmod_nan, add_nan. unfold float_fmod. rewrite EB. destruct (Prim2SF a); exact nan_sf.
  - unfold float_fmod at 1. rewrite EB, FloatAxioms.add_spec, EB. unfold float_fmod. rewrite EB.
    destruct (Prim2SF a) as [sa|sa| |sa ma ea] eqn:EA; rewrite ?EA, ?nan_sf; unfold SF64add; cbn [SFadd]; exact nan_sf.
  - apply fmod_nan, add_nan. unfold float_fmod. rewrite EB. destruct (Prim2SF a); exact nan_sf.
  - destruct H as [H|[H|H]].
    + apply fmod_nan, add_nan. unfold float_fmod. rewrite EB. 
      destruct (Prim2SF a) as [sa|sa| |sa ma ea]; try exact nan_sf; exfalso; eapply H; reflexivity.
    + exfalso. eapply H. reflexivity.
    + exfalso. cbn [sf_value] in H. unfold pow2 in H.
      assert (P : 0 < IZR (Z.pos mb) * powerRZ 2 eb) by (apply Rmult_lt_0_compat; [apply IZR_lt; lia|apply powerRZ_lt; lra]).
      destruct sb; lra.
Qed.
Print Assumptions mod_not_finite.

Example mod_not_finite_ex : (forall A, ~ is_value infinity A) /\ is_value 0%float 0 /\ (forall A, ~ is_value nan A).
Proof.
  split; [|split]; unfold is_value.
  - intro A. replace (Prim2SF infinity) with (S754_infinity false) by (vm_compute; reflexivity). auto.
  - replace (Prim2SF 0) with (S754_zero false) by (vm_compute; reflexivity). reflexivity.
  - intro A. rewrite nan_sf. auto.
Qed.
