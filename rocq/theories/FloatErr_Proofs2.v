(** Differences and absolute values of doubles. *)
From Coq Require Import ZArith Bool Lia Reals Lra Floats SpecFloat FloatAxioms Zpower List.
From Verif Require Import Codec_Spec Codec_Proofs Codec_Proofs3 FloatErr_Proofs.
Local Open Scope R_scope.

Lemma sub_ok f g x y : is_value f x -> is_value g y -> Rabs (x - y) <= pow2 1000 ->
  exists z, is_value (f - g)%float z /\ Rabs (z - (x - y)) <= pow2 (-53) * Rabs (x - y).
Proof.
  unfold is_value. intros X Y B. rewrite sub_spec. pose proof (Prim2SF_valid f) as VF. pose proof (Prim2SF_valid g) as VG.
  pose proof (p2_pos (-53)) as P53. pose proof (Rabs_pos (x - y)) as PA.
  assert (Exact : forall v z, sf_value v z -> z = x - y -> exists z, sf_value v z /\ Rabs (z - (x - y)) <= pow2 (-53) * Rabs (x - y)).
  { intros v z Hz ->. exists (x - y). split; auto. replace (x - y - (x - y)) with 0 by ring. rewrite Rabs_R0. nra. }
  destruct (Prim2SF f) as [sf|sf| |sf mf ef]; cbn [sf_value] in X; try contradiction;
  destruct (Prim2SF g) as [sg|sg| |sg mg eg]; cbn [sf_value] in Y; try contradiction; unfold SF64sub; cbn [SFsub].
  - apply (Exact _ 0); [destruct (Bool.eqb sf (negb sg)); reflexivity|lra].
  - apply (Exact _ (- y)); [rewrite Y; destruct sg; cbn [negb sf_value]; ring|lra].
  - apply (Exact _ x); [exact X|lra].
  - apply valid_iff in VF. apply valid_iff in VG. set (ez := Z.min ef eg).
    destruct (align_ok mf ef ez ltac:(lia)) as [A1 _]. destruct (align_ok mg eg ez ltac:(lia)) as [A2 _].
    set (a := fst (shl_align mf ef ez)) in *. set (b := fst (shl_align mg eg ez)) in *.
    assert (S : IZR (cond_Zopp sf (Z.pos a) - cond_Zopp sg (Z.pos b)) * pow2 ez = x - y).
    { rewrite minus_IZR, Rmult_minus_distr_r.
      assert (T : forall s q, IZR (cond_Zopp s (Z.pos q)) = (if s then -1 else 1) * IZR (Z.pos q)).
      { intros [|] q; cbn [cond_Zopp]; [rewrite opp_IZR|]; ring. }
      rewrite !T, !Rmult_assoc, A1, A2, X, Y. ring. }
    destruct (normalize_ok (cond_Zopp sf (Z.pos a) - cond_Zopp sg (Z.pos b)) ez false) as (z & Z1 & Z2); [lia|rewrite S; exact B|].
    rewrite S in Z2. exists z. split; [exact Z1|exact Z2].
Qed.

Lemma abs_value f x : is_value f x -> is_value (PrimFloat.abs f) (Rabs x).
Proof.
  unfold is_value. rewrite abs_spec. destruct (Prim2SF f) as [s|s| |s m e]; cbn [SFabs sf_value]; try contradiction.
  - intros ->. apply Rabs_R0.
  - intros ->. pose proof (p2_pos e). assert (0 < IZR (Z.pos m)) by (apply IZR_lt; lia).
    assert (0 < IZR (Z.pos m) * pow2 e) by (apply Rmult_lt_0_compat; auto).
    rewrite Rmult_assoc, Rabs_mult, (Rabs_right (IZR _ * _)) by lra.
    replace (Rabs (if s then -1 else 1)) with 1 by (destruct s; unfold Rabs; destruct (Rcase_abs _); lra). ring.
Qed.
