(** Lengths of paths, and places along them, in double precision. *)
From Coq Require Import ZArith Bool Lia Reals Lra Psatz Floats SpecFloat List.
From Verif Require Import Outcome Num Point_Model Path_Model Codec_Spec Codec_Proofs3 FloatErr_Proofs FloatErr_Proofs2.
Import ListNotations.
Local Open Scope R_scope.

(** Specification: the numbers in the states, and what they add up to. *)
Definition lengths (p : list (pstate FNum)) (Ls : list R) : Prop := Forall2 (fun (s : pstate FNum) (L : R) => is_value (ps_len s) L) p Ls.
(** Specification: the sum of the sizes. *)
Definition total (Ls : list R) : R := fold_right (fun L t => Rabs L + t) 0 Ls.

Lemma total_pos Ls : 0 <= total Ls.
Proof. induction Ls as [|L Ls IH]; simpl; [lra|]. pose proof (Rabs_pos L). unfold total in *. simpl. lra. Qed.

Lemma zero_value : is_value (nofZ FNum 0) 0.
Proof. unfold is_value. replace (Prim2SF (nofZ FNum 0)) with (S754_zero false) by (vm_compute; reflexivity). reflexivity. Qed.

Lemma e52 : pow2 (-52) = 2 * pow2 (-53).
Proof. change (-52)%Z with (1 + -53)%Z. rewrite p2_add, p2_1. ring. Qed.
Lemma e50 : pow2 (-50) = 4 * pow2 (-52).
Proof. change (-50)%Z with (2 + -52)%Z. rewrite p2_add, (p2_IZR 2) by lia. reflexivity. Qed.

Lemma sum_loop : forall p Ls acc a A k, lengths p Ls -> is_value acc a -> 0 <= A -> 0 <= k ->
  Rabs (a - A) <= k * pow2 (-52) * A -> (k + INR (length p)) * pow2 (-52) <= / 4 -> A + total Ls <= pow2 999 ->
  exists z, is_value (fold_left (fun d s => nadd FNum d (nabs FNum (ps_len s))) p acc) z /\
    Rabs (z - (A + total Ls)) <= (k + INR (length p)) * pow2 (-52) * (A + total Ls).
Proof.
  intros p Ls acc a A k F. revert acc a A k. induction F as [|s L p Ls V F IH]; intros acc a A k Va PA Pk E B T.
  - exists a. cbn [fold_left length total fold_right] in *. rewrite !Rplus_0_r. auto.
  - cbn [fold_left total fold_right length] in *. rewrite S_INR in *. fold (total Ls) in *. pose proof (total_pos Ls) as PT.
    pose proof (Rabs_pos L) as PL. pose proof (p2_pos (-53)) as P53. pose proof e52 as E52. pose proof (pos_INR (length p)) as Pn.
    set (e := pow2 (-52)) in *. assert (Pe : 0 < e) by lra.
    assert (Ke : 0 <= k * e <= / 4) by (split; [apply Rmult_le_pos; lra|nra]).
    apply abs_le in E. assert (KA : 0 <= k * e * A <= A / 4) by (split; [apply Rmult_le_pos; lra|nra]).
    assert (P999 : 2 * pow2 999 = pow2 1000) by (rewrite <- p2_1, <- p2_add; reflexivity).
    assert (AB : 0 <= a + Rabs L <= 2 * (A + Rabs L)) by lra.
    destruct (add_ok acc (PrimFloat.abs (ps_len s)) a (Rabs L) Va (abs_value _ _ V)) as (z & Z1 & Z2).
    { rewrite Rabs_right by lra. lra. }
    rewrite (Rabs_right (a + Rabs L)) in Z2 by lra.
    assert (Z3 : Rabs (z - (a + Rabs L)) <= e * (A + Rabs L)) by nra. apply abs_le in Z3.
    destruct (IH _ z (A + Rabs L) (k + 1) Z1) as (r & R1 & R2); try lra.
    + assert (k * e * A <= k * e * (A + Rabs L)) by (apply Rmult_le_compat_l; lra). apply Rabs_le. split; lra.
    + exists r. split; [exact R1|]. replace (A + (Rabs L + total Ls)) with (A + Rabs L + total Ls) by ring.
      replace (k + (INR (length p) + 1)) with (k + 1 + INR (length p)) by ring. exact R2.
Qed.

(** C313: the length of a path of doubles, Path.cpp:205-208, is right up to a part that
    grows with the number of states. *)
Theorem path_length_float : forall p Ls, lengths p Ls -> INR (length p) * pow2 (-52) <= / 4 -> total Ls <= pow2 999 ->
  exists z, is_value (path_length FNum p) z /\ Rabs (z - total Ls) <= INR (length p) * pow2 (-52) * total Ls.
Proof.
  intros p Ls F B T.
  destruct (sum_loop p Ls (nofZ FNum 0) 0 0 0 F zero_value) as (z & Z1 & Z2); try lra.
  - rewrite Rminus_0_r, Rabs_R0. lra.
  - exists z. split; [exact Z1|]. rewrite !Rplus_0_l in Z2. exact Z2.
Qed.
Print Assumptions path_length_float.

Section At.
  Variables cosf sinf : float -> float.

  (** Specification: the state at the length [v] along the state [s]. *)
  Definition along (s : pstate FNum) (v : float) : pstate FNum :=
    let l := (v * nofZ FNum (ps_dir s))%float in
    mkPS (N := FNum) (mkPoint (N := FNum) (px (ps_point s) + l * cosf (ps_angle s))%float (py (ps_point s) + l * sinf (ps_angle s))%float (nofZ FNum 0))
      (ps_angle s) (ps_len s) (ps_dir s) (ps_type s) (ps_vel s).

  Lemma at_loop : forall p Ls len r D k P, lengths p Ls -> is_value len r -> 0 <= r -> 0 <= k -> 0 <= D <= pow2 999 ->
    Rabs (r - (D - P)) <= k * pow2 (-52) * D -> 0 <= P -> (k + INR (length p)) * pow2 (-52) <= / 4 ->
    (r = 0 -> p <> []) -> D * (1 + (k + INR (length p)) * pow2 (-52)) <= P + total Ls ->
    exists i s L v V, nth_error p i = Some s /\ nth_error Ls i = Some L /\ is_value v V /\ 0 <= V <= Rabs L /\
      Rabs (P + total (firstn i Ls) + V - D) <= (k + INR (length p)) * pow2 (-52) * D /\
      path_at_loop FNum cosf sinf len p = along s v.
  Proof.
    intros p Ls len r D k P F. revert len r k P. induction F as [|s L p Ls V F IH]; intros len r k P Vr Pr Pk PD E PP B NE T.
    - exfalso. cbn [length total fold_right] in T. apply abs_le in E. simpl INR in T. rewrite !Rplus_0_r in T.
      destruct (Req_dec r 0) as [R0|R0]; [exact (NE R0 eq_refl)|]. nra.
    - cbn [length path_at_loop] in *. rewrite S_INR in *. pose proof (total_pos Ls) as PT.
      pose proof (Rabs_pos L) as PL. pose proof (p2_pos (-53)) as P53. pose proof e52 as E52. pose proof (pos_INR (length p)) as Pn.
      set (e := pow2 (-52)) in *. assert (Pe : 0 < e) by lra.
      assert (Ke : 0 <= k * e <= / 4) by (split; [apply Rmult_le_pos; lra|nra]).
      assert (KD : 0 <= k * e * D <= D / 4) by (split; [apply Rmult_le_pos; lra|nra]).
      assert (P999 : 2 * pow2 999 = pow2 1000) by (rewrite <- p2_1, <- p2_add; reflexivity).
      pose proof (ltb_ok _ _ _ _ (abs_value _ _ V) Vr) as LT.
      assert (E' : - (k * e * D) <= r - (D - P) <= k * e * D) by (apply abs_le; exact E).
      change (nltb FNum (nabs FNum (ps_len s)) len) with (PrimFloat.abs (ps_len s) <? len)%float.
      destruct (PrimFloat.abs (ps_len s) <? len)%float eqn:Q.
      + assert (LL : Rabs L < r) by (apply LT; reflexivity).
        destruct (sub_ok len (PrimFloat.abs (ps_len s)) r (Rabs L) Vr (abs_value _ _ V)) as (z & Z1 & Z2).
        { rewrite Rabs_right by lra. lra. }
        rewrite (Rabs_right (r - Rabs L)) in Z2 by lra.
        assert (P53' : pow2 (-53) <= / 4).
        { assert (e <= / 4) by nra. lra. }
        assert (Z0 : 0 < z). { apply abs_le in Z2. nra. }
        assert (Z3 : Rabs (z - (r - Rabs L)) <= e * D) by nra. apply abs_le in Z3.
        destruct (IH _ z (k + 1) (P + Rabs L) Z1) as (i & s' & L' & v & W & N1 & N2 & N3 & N4 & N5 & N6); try lra.
        * apply Rabs_le. split; lra.
        * simpl total in T. fold (total Ls) in T. replace (k + 1 + INR (length p)) with (k + (INR (length p) + 1)) by ring. unfold total in *. simpl in T. lra.
        * exists (S i), s', L', v, W. cbn [nth_error firstn]. split; [exact N1|]. split; [exact N2|]. split; [exact N3|]. split; [exact N4|].
          split; [|exact N6]. unfold total in *. cbn [fold_right]. 
          replace (k + (INR (length p) + 1)) with (k + 1 + INR (length p)) by ring.
          match goal with |- Rabs ?x <= _ => replace x with (P + Rabs L + fold_right (fun L0 t => Rabs L0 + t) 0 (firstn i Ls) + W - D) by ring end. exact N5.
      + assert (LL : r <= Rabs L). { apply Rnot_lt_le. intro X. apply LT in X. discriminate. }
        exists 0%nat, s, L, len, r. split; [reflexivity|]. split; [reflexivity|]. split; [exact Vr|]. split; [lra|].
        split; [|reflexivity]. cbn [firstn]. unfold total. cbn [fold_right]. rewrite Rplus_0_r.
        assert (k * e * D <= (k + (INR (length p) + 1)) * e * D).
        { apply Rmult_le_compat_r; [lra|]. apply Rmult_le_compat_r; lra. }
        apply Rabs_le. split; lra.
  Qed.

  (** C44, as far as it holds: up to (nearly) its length, a path is evaluated in one of its
      states, at the length asked for up to rounding. *)
  Theorem path_at_float : forall p Ls d D, p <> [] -> lengths p Ls -> INR (length p) * pow2 (-52) <= / 4 -> total Ls <= pow2 999 ->
    is_value d D -> 0 <= D <= (1 - INR (length p) * pow2 (-50)) * total Ls ->
    exists i s L v V, nth_error p i = Some s /\ nth_error Ls i = Some L /\ is_value v V /\ 0 <= V <= Rabs L /\
      Rabs (total (firstn i Ls) + V - D) <= INR (length p) * pow2 (-52) * D /\
      path_at FNum cosf sinf p d = along s v.
  Proof.
    intros p Ls d D NE F B T Vd HD.
    destruct (path_length_float p Ls F B T) as (t & T1 & T2).
    pose proof (total_pos Ls) as PT. pose proof (pos_INR (length p)) as Pn. rewrite e50 in HD. pose proof (p2_pos (-52)) as Pe.
    set (e := pow2 (-52)) in *. set (n := INR (length p)) in *.
    assert (NE0 : 0 <= n * e) by (apply Rmult_le_pos; lra).
    set (x := n * e) in *. replace (n * (4 * e)) with (4 * x) in HD by (unfold x; ring).
    assert (XT : 0 <= x * total Ls) by (apply Rmult_le_pos; lra).
    assert (DT : D <= total Ls) by lra. apply abs_le in T2.
    assert (L1 : nltb FNum (path_length FNum p) d = false).
    { apply not_true_is_false. intro X. apply (ltb_ok _ _ _ _ T1 Vd) in X. lra. }
    assert (L2 : nltb FNum d (nofZ FNum 0) = false).
    { apply not_true_is_false. intro X. apply (ltb_ok _ _ _ _ Vd zero_value) in X. lra. }
    unfold path_at. rewrite L1, L2.
    destruct (at_loop p Ls d D D 0 0 F Vd) as (i & s & L & v & V & H1 & H2 & H3 & H4 & H5 & H6); try lra.
    - replace (D - (D - 0)) with 0 by ring. rewrite Rabs_R0. lra.
    - rewrite Rplus_0_l. exact B.
    - auto.
    - fold n e. rewrite Rplus_0_l. fold x. rewrite Rplus_0_l.
      assert (D * (1 + x) <= (1 - 4 * x) * total Ls * (1 + x)) by (apply Rmult_le_compat_r; lra). 
      assert (0 <= x * (x * total Ls)) by (apply Rmult_le_pos; lra). nra.
    - exists i, s, L, v, V. split; [exact H1|]. split; [exact H2|]. split; [exact H3|]. split; [exact H4|].
      split; [|exact H6]. rewrite !Rplus_0_l in H5. exact H5.
  Qed.
End At.
Print Assumptions path_at_float.

(** Two states, forward and then backward, asked for at three quarters of the length. *)
Definition two_states : list (pstate FNum) :=
  [mkPS (N := FNum) (mkPoint (N := FNum) 5 7 0)%float 0%float 1%float 1 1 1%float;
   mkPS (N := FNum) (mkPoint (N := FNum) 6 7 0)%float 0%float 2%float (-1) 2 1%float].
Example path_at_float_ex : exists d D, two_states <> [] /\ lengths two_states [1; 2] /\
  INR (length two_states) * pow2 (-52) <= / 4 /\ total [1; 2] <= pow2 999 /\
  is_value d D /\ 0 <= D <= (1 - INR (length two_states) * pow2 (-50)) * total [1; 2] /\ 1 < D.
Proof.
  exists 2%float, 2. split; [discriminate|]. 
  assert (P : pow2 (-50) <= / 8).
  { replace (/ 8) with (pow2 (-3)).
    - apply p2_le. lia.
    - pose proof (p2_add 3 (-3)) as Q0. change (3 + -3)%Z with 0%Z in Q0. rewrite (p2_IZR 3) in Q0 by lia.
      change (2 ^ 3)%Z with 8%Z in Q0. unfold pow2 at 1 in Q0. cbn [powerRZ] in Q0. lra. }
  pose proof (p2_pos (-52)). pose proof e50 as E50. pose proof e52 as E52.
  assert (U : 4503599627370496 * pow2 (-52) = 1).
  { pose proof (p2_add 52 (-52)) as Q0. change (52 + -52)%Z with 0%Z in Q0. rewrite (p2_IZR 52) in Q0 by lia.
    change (2 ^ 52)%Z with 4503599627370496%Z in Q0. unfold pow2 at 1 in Q0. cbn [powerRZ] in Q0. lra. }
  assert (E51 : pow2 (-51) = 2 * pow2 (-52)) by (change (-51)%Z with (1 + -52)%Z; rewrite p2_add, p2_1; ring).
  assert (V2 : is_value 2 2).
  { unfold is_value. replace (Prim2SF 2) with (S754_finite false 4503599627370496 (-51)) by (vm_compute; reflexivity). unfold sf_value. lra. }
  split.
  { unfold lengths, two_states. constructor; [|constructor; [|constructor]]; cbn [ps_len]; [|exact V2].
    unfold is_value. replace (Prim2SF 1) with (S754_finite false 4503599627370496 (-52)) by (vm_compute; reflexivity). unfold sf_value. lra. }
  assert (T : total [1; 2] = 3) by (unfold total; simpl; rewrite !Rabs_right by lra; ring).
  rewrite T. cbn [two_states length]. replace (INR 2) with 2 by (simpl; ring). split; [lra|]. split.
  { apply (Rle_trans _ (pow2 2)); [rewrite (p2_IZR 2) by lia; simpl; lra|apply p2_le; lia]. }
  split; [exact V2|]. lra.
Qed.
