(** The lines of the swaths in double precision: how far they are from the exact ones. *)
From Coq Require Import ZArith Bool Lia Reals Lra Psatz Floats SpecFloat List.
From Verif Require Import Outcome Num SwathGen_Model Codec_Spec Codec_Proofs3 FloatErr_Proofs SwathGen_Props4.
Import ListNotations.
Local Open Scope R_scope.

Lemma u_value : 9007199254740992 * pow2 (-53) = 1.
Proof.
  pose proof (p2_add 53 (-53)) as E. change (53 + -53)%Z with 0%Z in E. rewrite (p2_IZR 53) in E by lia.
  change (2 ^ 53)%Z with 9007199254740992%Z in E. unfold pow2 at 1 in E. cbn [powerRZ] in E. lra.
Qed.

Lemma half_value : is_value (ndiv FNum (nofZ FNum 1) (nofZ FNum 2)) (/ 2) /\ is_value (nopp FNum (ndiv FNum (nofZ FNum 1) (nofZ FNum 2))) (- / 2).
Proof.
  unfold is_value.
  replace (Prim2SF (ndiv FNum (nofZ FNum 1) (nofZ FNum 2))) with (S754_finite false 4503599627370496 (-53)) by (vm_compute; reflexivity).
  replace (Prim2SF (nopp FNum (ndiv FNum (nofZ FNum 1) (nofZ FNum 2)))) with (S754_finite true 4503599627370496 (-53)) by (vm_compute; reflexivity).
  pose proof u_value. split; unfold sf_value; lra.
Qed.

Section Loop.
  Variables (h w : float) (H W : R) (ov : bool).
  Hypothesis VH : is_value h H.
  Hypothesis VW : is_value w W.
  Hypothesis HW1 : pow2 (-900) <= W.
  Hypothesis HW2 : W <= pow2 900.
  Hypothesis HH : 0 < H.
  Hypothesis HHW : H <= 1000000 * W.

  Let A : R := pow2 (-53) * W.
  Let c : R := if ov then - / 2 else 0.

  Lemma W_pos : 0 < W. Proof. pose proof (p2_pos (-900)). lra. Qed.
  Lemma A_value : 9007199254740992 * A = W. Proof. unfold A. rewrite <- Rmult_assoc, u_value. ring. Qed.
  Lemma A_pos : 0 < A. Proof. pose proof W_pos. pose proof A_value. lra. Qed.
  Lemma big : 4000000 * W <= pow2 1000.
  Proof.
    pose proof W_pos. change 1000%Z with (22 + (78 + 900))%Z. rewrite !p2_add, (p2_IZR 22), (p2_IZR 78) by lia.
    change (2 ^ 22)%Z with 4194304%Z. pose proof (p2_pos 900).
    assert (1 <= IZR (2 ^ 78)) by (apply IZR_le; lia).
    assert (W <= IZR (2 ^ 78) * pow2 900) by nra. nra.
  Qed.

  Lemma half_ok f v : is_value f v -> v = / 2 \/ v = - / 2 -> exists q, is_value (f * w)%float q /\ Rabs (q - v * W) <= A.
  Proof.
    intros V C. pose proof W_pos as WP. pose proof big as B. pose proof A_pos as AP. pose proof A_value as AV.
    assert (AW : Rabs (v * W) = W / 2) by (rewrite Rabs_mult, (Rabs_right W) by lra; destruct C as [-> | ->]; unfold Rabs; destruct (Rcase_abs _); lra).
    destruct (mul_ok f w v W V VW) as (q & Q1 & Q2); [rewrite AW; lra|].
    exists q. split; auto. eapply Rle_trans; [exact Q2|]. rewrite AW. apply Rmax_lub.
    - unfold A. pose proof (p2_pos (-53)). nra.
    - unfold A. apply (Rle_trans _ (pow2 (-53) * pow2 (-900))).
      + rewrite <- p2_add. apply p2_le. lia.
      + apply Rmult_le_compat_l; [apply Rlt_le, p2_pos|lra].
  Qed.

  (** Specification: the height before the line number k, within its rounding errors. *)
  Definition near (k : nat) (y : float) : Prop :=
    exists Y, is_value y Y /\ Rabs (Y - (INR k - / 2) * W) <= (INR k + 1) * 1100000 * A.

  Lemma near_0 : near 0 (sg_curve_y0 FNum w).
  Proof.
    destruct (half_ok _ _ (proj2 half_value)) as (q & Q1 & Q2); [auto|]. exists q. split; [exact Q1|].
    simpl INR. pose proof A_pos. replace ((0 - / 2) * W) with (- / 2 * W) by ring. lra.
  Qed.

  Lemma err_small k : INR k <= 1000001 -> (INR k + 3) * 1100000 * A <= W / 1000.
  Proof. intro Hk. pose proof A_pos. pose proof A_value. assert ((INR k + 3) * 1100000 * A <= 1000004 * 1100000 * A) by (apply Rmult_le_compat_r; lra). lra. Qed.

  Lemma near_S k y : INR k <= 1000001 -> near k y -> near (S k) (nadd FNum y w).
  Proof.
    intros Hk (Y & V & E). pose proof A_pos as AP. pose proof A_value as AV. pose proof W_pos as WP. pose proof big as B.
    pose proof (err_small k Hk) as ES. pose proof (pos_INR k) as Pk. apply abs_le in E.
    assert (KA : 0 <= INR k * A) by (apply Rmult_le_pos; lra).
    assert (KW : 0 <= INR k * W <= 1000001 * W) by (split; [apply Rmult_le_pos; lra|apply Rmult_le_compat_r; lra]).
    assert (AB : Rabs (Y + W) <= 1000003 * W).
    { apply Rabs_le. replace ((INR k - / 2) * W) with (INR k * W - W / 2) in E by field.
      replace ((INR k + 1) * 1100000 * A) with (1100000 * (INR k * A) + 1100000 * A) in E by ring.
      replace ((INR k + 3) * 1100000 * A) with (1100000 * (INR k * A) + 3300000 * A) in ES by ring. split; lra. }
    destruct (add_ok y w Y W V VW) as (z & Z1 & Z2); [lra|].
    exists z. split; [exact Z1|].
    assert (pow2 (-53) * Rabs (Y + W) <= 1000003 * A).
    { unfold A. pose proof (p2_pos (-53)). nra. }
    rewrite S_INR. assert (Z3 : Rabs (z - (Y + W)) <= 1000003 * A) by lra. apply abs_le in Z3.
    apply Rabs_le. 
    replace ((INR k - / 2) * W) with (INR k * W - W / 2) in E by field.
    replace ((INR k + 1 - / 2) * W) with (INR k * W + W / 2) by field.
    replace ((INR k + 1) * 1100000 * A) with (1100000 * (INR k * A) + 1100000 * A) in E by ring.
    replace ((INR k + 1 + 1) * 1100000 * A) with (1100000 * (INR k * A) + 2200000 * A) by ring. split; lra.
  Qed.

  Lemma near_test k y : INR k <= 1000001 -> near k y ->
    exists T, is_value (nadd FNum y (if ov then nofZ FNum 0 else nmul FNum (ndiv FNum (nofZ FNum 1) (nofZ FNum 2)) w)) T /\
      Rabs (T - (INR k + c) * W) <= W / 1000.
  Proof.
    intros Hk (Y & V & E). pose proof A_pos as AP. pose proof A_value as AV. pose proof W_pos as WP. pose proof big as B.
    pose proof (err_small k Hk) as ES. pose proof (pos_INR k) as Pk. apply abs_le in E.
    assert (KA : 0 <= INR k * A) by (apply Rmult_le_pos; lra).
    assert (KW : 0 <= INR k * W <= 1000001 * W) by (split; [apply Rmult_le_pos; lra|apply Rmult_le_compat_r; lra]).
    assert (Q : exists q, is_value (if ov then nofZ FNum 0 else nmul FNum (ndiv FNum (nofZ FNum 1) (nofZ FNum 2)) w) q /\
      Rabs (q - (c + / 2) * W) <= A).
    { unfold c. destruct ov.
      - exists 0. split; [unfold is_value; replace (Prim2SF (nofZ FNum 0)) with (S754_zero false) by (vm_compute; reflexivity); reflexivity|].
        replace (0 - (- / 2 + / 2) * W) with 0 by field. rewrite Rabs_R0. lra.
      - destruct (half_ok _ _ (proj1 half_value)) as (q & Q1 & Q2); auto. exists q. split; [exact Q1|].
        replace (0 + / 2) with (/ 2) by ring. exact Q2. }
    destruct Q as (q & Q1 & Q2). apply abs_le in Q2.
    assert (CB : - / 2 <= c <= 0) by (unfold c; destruct ov; lra).
    assert (CW : - (W / 2) <= c * W <= 0) by (split; nra).
    replace ((INR k - / 2) * W) with (INR k * W - W / 2) in E by field.
    replace ((INR k + 1) * 1100000 * A) with (1100000 * (INR k * A) + 1100000 * A) in E by ring.
    replace ((INR k + 3) * 1100000 * A) with (1100000 * (INR k * A) + 3300000 * A) in ES by ring.
    replace ((c + / 2) * W) with (c * W + W / 2) in Q2 by field.
    assert (AB : Rabs (Y + q) <= 1000003 * W) by (apply Rabs_le; split; lra).
    destruct (add_ok y _ Y q V Q1) as (z & Z1 & Z2); [lra|].
    exists z. split; [exact Z1|].
    assert (pow2 (-53) * Rabs (Y + q) <= 1000003 * A) by (unfold A; pose proof (p2_pos (-53)); nra).
    assert (Z3 : Rabs (z - (Y + q)) <= 1000003 * A) by lra. apply abs_le in Z3.
    apply Rabs_le. replace ((INR k + c) * W) with (INR k * W + c * W) by ring. split; lra.
  Qed.

  Lemma loop_ok : forall (j : nat) k y, INR k <= 1000001 -> 1000001 <= INR k + INR j -> near k y ->
    exists ys, (forall fuel, (length ys <= fuel)%nat -> sg_curve_ys FNum fuel ov h w y = Ok ys) /\
      H <= (INR (k + length ys) + c + / 1000) * W /\
      (ys <> [] -> (INR (k + length ys) - 1 + c - / 1000) * W < H) /\
      forall i v, nth_error ys i = Some v -> exists V, is_value v V /\ Rabs (V - (INR (k + i) + / 2) * W) <= W / 1000.
  Proof.
    pose proof W_pos as WP.
    assert (CB : - / 2 <= c <= 0) by (unfold c; destruct ov; lra).
    induction j as [|j IH]; intros k y Hk Hj N.
    - destruct (near_test k y Hk N) as (T & T1 & T2). apply abs_le in T2. simpl INR in Hj.
      assert (L : H <= T) by nra.
      assert (F : nltb FNum (nadd FNum y (if ov then nofZ FNum 0 else nmul FNum (ndiv FNum (nofZ FNum 1) (nofZ FNum 2)) w)) h = false).
      { apply not_true_is_false. intro X. apply (ltb_ok _ _ _ _ T1 VH) in X. lra. }
      exists []. split; [intros fuel _; destruct fuel; cbn [sg_curve_ys]; rewrite F; reflexivity|].
      cbn [length]. rewrite Nat.add_0_r. split; [nra|]. split; [congruence|]. intros [|i] v X; discriminate.
    - destruct (near_test k y Hk N) as (T & T1 & T2). apply abs_le in T2.
      destruct (nltb FNum (nadd FNum y (if ov then nofZ FNum 0 else nmul FNum (ndiv FNum (nofZ FNum 1) (nofZ FNum 2)) w)) h) eqn:F.
      + assert (L : T < H) by (apply (ltb_ok _ _ _ _ T1 VH); exact F).
        assert (K1 : INR k < 1000001).
        { assert ((INR k + c - / 1000) * W < 1000000 * W) by nra. apply Rmult_lt_reg_r in H0; lra. }
        assert (K2 : INR (S k) <= 1000001).
        { rewrite INR_IZR_INZ in K1 |- *. apply lt_IZR in K1. apply IZR_le. lia. }
        destruct (IH (S k) (nadd FNum y w)) as (ys & Y1 & Y2 & Y3 & Y4); [auto|rewrite S_INR in *; lra|apply near_S; auto|].
        exists (nadd FNum y w :: ys). cbn [length]. replace (k + S (length ys))%nat with (S k + length ys)%nat by lia.
        split; [|split; [auto|split]].
        * intros fuel Hf. destruct fuel as [|fuel]; [lia|]. cbn [sg_curve_ys]. rewrite F. rewrite Y1 by lia. reflexivity.
        * intros _. destruct ys as [|v ys]; [|apply Y3; discriminate]. cbn [length]. rewrite Nat.add_0_r, S_INR. nra.
        * intros [|i] v X.
          -- injection X as <-. rewrite Nat.add_0_r. destruct (near_S k y Hk N) as (V & V1 & V2). exists V. split; auto.
             pose proof (err_small k Hk) as ES. pose proof A_pos. rewrite S_INR in V2.
             replace (INR k + 1 - / 2) with (INR k + / 2) in V2 by field. eapply Rle_trans; [exact V2|].
             eapply Rle_trans; [|exact ES]. pose proof (pos_INR k). apply Rmult_le_compat_r; lra.
          -- destruct (Y4 i v X) as (V & V1 & V2). exists V. split; auto. replace (k + S i)%nat with (S k + i)%nat by lia. exact V2.
      + assert (L : H <= T).
        { apply Rnot_lt_le. intro X. apply (ltb_ok _ _ _ _ T1 VH) in X. discriminate (eq_trans (eq_sym F) X). }
        exists []. split; [intros fuel _; destruct fuel; cbn [sg_curve_ys]; rewrite F; reflexivity|].
        cbn [length]. rewrite Nat.add_0_r. split; [nra|]. split; [congruence|]. intros [|i] v X; discriminate.
  Qed.
End Loop.

(** C310, as far as it holds: with doubles, for fields of up to a million widths, the loop
    ends; the number of lines is right but for a thousandth of a width (so it can be wrong
    by one only if the height is that close to a multiple of the width), and every line is
    within a thousandth of a width of its place. *)
Theorem line_count_float : forall (h w : float) (H W : R) (ov : bool),
  is_value h H -> is_value w W -> pow2 (-900) <= W <= pow2 900 -> 0 < H <= 1000000 * W ->
  let c := if ov then - / 2 else 0 in
  exists ys, (forall fuel, (length ys <= fuel)%nat -> sg_curve_ys FNum fuel ov h w (sg_curve_y0 FNum w) = Ok ys) /\
    (INR (length ys) - 1 + c - / 1000) * W < H <= (INR (length ys) + c + / 1000) * W /\
    forall i v, nth_error ys i = Some v -> exists V, is_value v V /\ Rabs (V - (INR i + / 2) * W) <= W / 1000.
Proof.
  intros h w H W ov VH VW [W1 W2] [H1 H2] c.
  destruct (loop_ok h w H W ov VH VW W1 W2 H1 H2 (Z.to_nat 1000001) 0 (sg_curve_y0 FNum w)) as (ys & Y1 & Y2 & Y3 & Y4).
  - simpl. lra.
  - rewrite (INR_IZR_INZ (Z.to_nat 1000001)), Z2Nat.id by lia. simpl INR. lra.
  - eapply near_0; eauto.
  - exists ys. split; [exact Y1|]. cbn [Nat.add] in *. split; [|exact Y4]. split; [|exact Y2].
    destruct ys as [|v ys]; [|apply Y3; discriminate]. cbn [length]. simpl INR.
    assert (0 < W) by (pose proof (p2_pos (-900)); lra). unfold c. destruct ov; nra.
Qed.
Print Assumptions line_count_float.

(** The number is right when the height is not that close to a multiple of the width. *)
Theorem line_count_float_exact : forall (h w : float) (H W : R) (n : nat),
  is_value h H -> is_value w W -> pow2 (-900) <= W <= pow2 900 -> 0 < H <= 1000000 * W ->
  (INR n - 1 + / 1000) * W < H <= (INR n - / 1000) * W ->
  exists ys, length ys = n /\ forall fuel, (n <= fuel)%nat -> sg_curve_ys FNum fuel false h w (sg_curve_y0 FNum w) = Ok ys.
Proof.
  intros h w H W n VH VW HW HH [N1 N2].
  destruct (line_count_float h w H W false VH VW HW HH) as (ys & Y1 & [Y2 Y3] & _); cbv iota in Y2, Y3.
  destruct HW as [HW1 HW2]. assert (WP : 0 < W) by (pose proof (p2_pos (-900)); lra).
  assert (E : length ys = n).
  { assert (A1 : (INR (length ys) - 1 + 0 - / 1000) * W < (INR n - / 1000) * W) by lra. apply Rmult_lt_reg_r in A1; [|assumption].
    assert (A2 : (INR n - 1 + / 1000) * W < (INR (length ys) + 0 + / 1000) * W) by lra. apply Rmult_lt_reg_r in A2; [|assumption].
    assert (B1 : INR (length ys) < INR (n + 1)) by (rewrite plus_INR; change (INR 1) with 1; lra). apply INR_lt in B1.
    assert (B2 : INR n < INR (length ys + 1)) by (rewrite plus_INR; change (INR 1) with 1; lra). apply INR_lt in B2. lia. }
  exists ys. split; auto. intros fuel Hf. apply Y1. lia.
Qed.
Print Assumptions line_count_float_exact.

(** A field 4.4 high with swaths of 0.5: nine lines. *)
Example line_count_float_ex : exists H W, is_value d4_4 H /\ is_value 0.5 W /\ pow2 (-900) <= W <= pow2 900 /\ 0 < H <= 1000000 * W /\
  (INR 9 - 1 + / 1000) * W < H <= (INR 9 - / 1000) * W.
Proof.
  exists (IZR 4953959590107546 * pow2 (-50)), (/ 2). split.
  { unfold is_value. replace (Prim2SF d4_4) with (S754_finite false 4953959590107546 (-50)) by (vm_compute; reflexivity). unfold sf_value; ring. }
  split. { unfold is_value. replace (Prim2SF 0.5) with (S754_finite false 4503599627370496 (-53)) by (vm_compute; reflexivity). pose proof u_value. unfold sf_value; lra. }
  assert (P1 : pow2 (-1) = / 2).
  { pose proof (p2_add 1 (-1)) as Q0. change (1 + -1)%Z with 0%Z in Q0. rewrite p2_1 in Q0. unfold pow2 in *. cbn [powerRZ] in *. lra. }
  assert (P50 : pow2 (-50) = 8 * pow2 (-53)).
  { change (-50)%Z with (3 + -53)%Z. rewrite p2_add, (p2_IZR 3) by lia. reflexivity. }
  rewrite P50. pose proof u_value. split.
  - split.
    + rewrite <- P1. apply p2_le. lia.
    + rewrite <- P1. apply p2_le. lia.
  - replace (INR 9) with 9 by (simpl; ring). split; split; lra.
Qed.
