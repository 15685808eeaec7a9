(** The time a path takes, in double precision. *)
From Coq Require Import ZArith Bool Lia Reals Lra Psatz Floats SpecFloat List.
From Verif Require Import Outcome Num Point_Model Path_Model Codec_Spec Codec_Proofs3 FloatErr_Proofs FloatErr_Proofs4 Path_Props5.
Import ListNotations.
Local Open Scope R_scope.

(** Specification: the times of the states, from their lengths and velocities. *)
Definition times (p : list (pstate FNum)) (Ts : list R) : Prop :=
  Forall2 (fun (s : pstate FNum) (T : R) => exists L V, is_value (ps_len s) L /\ is_value (ps_vel s) V /\ V <> 0 /\ T = L / V) p Ts.
(** Specification: the sum. *)
Definition sum (Ts : list R) : R := fold_right Rplus 0 Ts.

Lemma sum_total Ts : Rabs (sum Ts) <= total Ts.
Proof.
  induction Ts as [|T Ts IH]; unfold sum, total in *; cbn [fold_right]; [rewrite Rabs_R0; lra|].
  eapply Rle_trans; [apply Rabs_triang|]. lra.
Qed.

Lemma time_loop : forall p Ts acc a A W k, times p Ts -> is_value acc a -> Rabs A <= W -> 0 <= k ->
  Rabs (a - A) <= k * (pow2 (-52) * W + pow2 (-1074)) -> (k + 2 * INR (length p)) * pow2 (-52) <= / 4 -> W + total Ts <= pow2 998 ->
  exists z, is_value (fold_left (fun d s => nadd FNum (ndiv FNum (ps_len s) (ps_vel s)) d) p acc) z /\
    Rabs (z - (A + sum Ts)) <= (k + 2 * INR (length p)) * (pow2 (-52) * (W + total Ts) + pow2 (-1074)).
Proof.
  intros p Ts acc a A W k F. revert acc a A W k. induction F as [|s T p Ts Q F IH]; intros acc a A W k Va PA Pk E B U.
  - exists a. cbn [fold_left length total sum fold_right] in *. change (INR 0) with 0. rewrite Rmult_0_r, !Rplus_0_r. auto.
  - destruct Q as (L & V & VL & VV & NV & ->).
    cbn [fold_left total sum fold_right length] in *. rewrite S_INR in *. fold (total Ts) (sum Ts) in *. pose proof (total_pos Ts) as PT.
    set (q := L / V) in *.
    pose proof (Rabs_pos q) as Pq. pose proof (p2_pos (-53)) as P53. pose proof e52 as E52. pose proof (pos_INR (length p)) as Pn.
    pose proof (p2_pos (-1074)) as Ph. assert (h1 : pow2 (-1074) <= pow2 998) by (apply p2_le; lia).
    set (e := pow2 (-52)) in *. set (h := pow2 (-1074)) in *. assert (Pe : 0 < e) by lra.
    pose proof (Rabs_pos A) as PA0. set (n := INR (length p)) in *.
    assert (ke : 0 <= k * e) by (apply Rmult_le_pos; lra).
    assert (ne : 0 <= n * e) by (apply Rmult_le_pos; lra).
    assert (Ke : k * e <= / 4 /\ e <= / 4) by (split; lra).
    assert (P1000 : 4 * pow2 998 = pow2 1000) by (replace 4 with (pow2 2) by (rewrite (p2_IZR 2) by lia; reflexivity); rewrite <- p2_add; reflexivity).
    destruct (div_any _ _ L V VL VV NV) as (d & D1 & D2); [fold q; lra|]. fold q e h in D2.
    assert (D3 : Rabs (d - q) <= e * Rabs q + h).
    { eapply Rle_trans; [exact D2|]. assert (0 <= e * Rabs q) by (apply Rmult_le_pos; lra). apply Rmax_lub; lra. }
    (* bounds of the products *)
    assert (KW : k * (e * W + h) <= / 4 * W + k * h) by (replace (k * (e * W + h)) with (k * e * W + k * h) by ring; apply Rplus_le_compat_r; apply Rmult_le_compat_r; lra).
    assert (kh : k * h <= / 4 * pow2 998).
    { apply (Rle_trans _ (k * (e * pow2 998))).
      - apply Rmult_le_compat_l; [lra|]. unfold e, h. rewrite <- p2_add. apply p2_le. lia.
      - replace (k * (e * pow2 998)) with (k * e * pow2 998) by ring. apply Rmult_le_compat_r; lra. }
    assert (eq : e * Rabs q <= / 4 * Rabs q) by (apply Rmult_le_compat_r; lra).
    assert (S1 : Rabs (d + a - (q + A)) <= k * (e * W + h) + (e * Rabs q + h)).
    { replace (d + a - (q + A)) with (d - q + (a - A)) by ring. eapply Rle_trans; [apply Rabs_triang|]. lra. }
    assert (S2 : Rabs (d + a) <= Rabs q + W + (k * (e * W + h) + (e * Rabs q + h))).
    { replace (d + a) with (q + A + (d + a - (q + A))) by ring. eapply Rle_trans; [apply Rabs_triang|].
      assert (Rabs (q + A) <= Rabs q + Rabs A) by apply Rabs_triang. lra. }
    destruct (add_ok _ acc d a D1 Va) as (z & Z1 & Z2); [lra|].
    assert (Z3 : Rabs (z - (d + a)) <= e / 2 * (Rabs q + W + (k * (e * W + h) + (e * Rabs q + h)))).
    { eapply Rle_trans; [exact Z2|]. replace (pow2 (-53)) with (e / 2) by lra. apply Rmult_le_compat_l; lra. }
    assert (G1 : e / 2 * (k * (e * W + h)) <= / 8 * (e * W + h)).
    { replace (e / 2 * (k * (e * W + h))) with (k * e / 2 * (e * W + h)) by field. apply Rmult_le_compat_r; [|lra].
      assert (0 <= e * W) by (apply Rmult_le_pos; lra). lra. }
    assert (G2 : e / 2 * (e * Rabs q + h) <= / 8 * (e * Rabs q + h)).
    { apply Rmult_le_compat_r; [|lra]. assert (0 <= e * Rabs q) by (apply Rmult_le_pos; lra). lra. }
    assert (Z4 : Rabs (z - (A + q)) <= (k + 2) * (e * (W + Rabs q) + h)).
    { replace (z - (A + q)) with (z - (d + a) + (d + a - (q + A))) by ring. eapply Rle_trans; [apply Rabs_triang|].
      assert (0 <= k * e * Rabs q) by (apply Rmult_le_pos; lra). assert (0 <= e * Rabs q) by (apply Rmult_le_pos; lra).
      assert (0 <= e * W) by (apply Rmult_le_pos; lra). lra. }
    destruct (IH _ z (A + q) (W + Rabs q) (k + 2) Z1) as (r & R1 & R2); try lra.
    + eapply Rle_trans; [apply Rabs_triang|]. lra.
    + exists r. split; [exact R1|]. replace (A + (q + sum Ts)) with (A + q + sum Ts) by ring.
      replace (W + (Rabs q + total Ts)) with (W + Rabs q + total Ts) by ring.
      replace (k + 2 * (n + 1)) with (k + 2 + 2 * n) by ring. exact R2.
Qed.

(** The time a path of doubles takes, Path.cpp:54-57, is right up to a part of the sum of the
    sizes that grows with the number of states; no velocity is zero. *)
Theorem task_time_float : forall p Ts, times p Ts -> 2 * INR (length p) * pow2 (-52) <= / 4 -> total Ts <= pow2 998 ->
  exists z, is_value (path_getTaskTime FNum p) z /\
    Rabs (z - sum Ts) <= 2 * INR (length p) * (pow2 (-52) * total Ts + pow2 (-1074)).
Proof.
  intros p Ts F B T. pose proof (p2_pos (-1074)).
  destruct (time_loop p Ts (nofZ FNum 0) 0 0 0 0 F zero_value) as (z & Z1 & Z2); try lra.
  - rewrite Rabs_R0. lra.
  - rewrite Rminus_0_r, Rabs_R0. lra.
  - exists z. split; [exact Z1|]. rewrite !Rplus_0_l in Z2. exact Z2.
Qed.
Print Assumptions task_time_float.

(** A concrete path: its states have lengths 1 and 2, driven at the velocities 2 and 1. *)
Definition slow_then_fast : list (pstate FNum) :=
  [ mkPS (N := FNum) (mkPoint (N := FNum) 0 0 0)%float 0%float 1%float 1%Z 1%Z 2%float;
    mkPS (N := FNum) (mkPoint (N := FNum) 1 0 0)%float 0%float 2%float 1%Z 1%Z 1%float ].

Example task_time_float_ex : times slow_then_fast [1 / 2; 2 / 1] /\ 2 * INR (length slow_then_fast) * pow2 (-52) <= / 4 /\
  total [1 / 2; 2 / 1] <= pow2 998.
Proof.
  assert (U : 4503599627370496 * pow2 (-52) = 1).
  { pose proof (p2_add 52 (-52)) as Q0. change (52 + -52)%Z with 0%Z in Q0. rewrite (p2_IZR 52) in Q0 by lia.
    change (2 ^ 52)%Z with 4503599627370496%Z in Q0. unfold pow2 at 1 in Q0. cbn [powerRZ] in Q0. lra. }
  assert (E51 : pow2 (-51) = 2 * pow2 (-52)) by (change (-51)%Z with (1 + -52)%Z; rewrite p2_add, p2_1; ring).
  assert (V2 : is_value 2 2).
  { unfold is_value. replace (Prim2SF 2) with (S754_finite false 4503599627370496 (-51)) by (vm_compute; reflexivity). unfold sf_value. lra. }
  assert (V1 : is_value 1 1).
  { unfold is_value. replace (Prim2SF 1) with (S754_finite false 4503599627370496 (-52)) by (vm_compute; reflexivity). unfold sf_value. lra. }
  split; [|split].
  - constructor; [|constructor; [|constructor]]; [exists 1, 2|exists 2, 1]; cbn [ps_len ps_vel]; repeat split; auto; lra.
  - cbn [slow_then_fast length]. replace (INR 2) with 2 by (simpl; ring). lra.
  - unfold total. cbn [fold_right]. rewrite !Rabs_right by lra. apply (Rle_trans _ (pow2 2)); [rewrite (p2_IZR 2) by lia; simpl; lra|apply p2_le; lia].
Qed.
