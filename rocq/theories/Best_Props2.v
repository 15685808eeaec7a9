(** Which angles are tried when the step is a part of the full turn. *)
From Coq Require Import List Arith Lia ZArith Bool Reals Lra Floats Permutation.
From Verif Require Import Outcome Num Point_Model Angle_Model SwathGen_Model SwathGen_Props Codec_Spec Best_Model2.
Import ListNotations.
Local Open Scope R_scope.

(** C312, with exact numbers: with the [m]-th part of the full turn as step, the angle
    returned is best among all [m] multiples below the full turn. *)
Theorem best_of_all_parts : forall (cost : R -> outcome R) (c : R -> R) (m : nat) sched,
  (0 < m)%nat -> (Z.of_nat m < 2147483648)%Z -> (forall n, Permutation (sched n) (seq 0 n)) ->
  (forall i, (i < m)%nat -> cost (INR i * (2 * PI / INR m)) = Ok (c (INR i * (2 * PI / INR m)))) ->
  exists k, (k < m)%nat /\ bf_computeBestAngle cost (2 * PI / INR m) sched = Ok (INR k * (2 * PI / INR m)) /\
    forall j, (j < m)%nat -> c (INR k * (2 * PI / INR m)) <= c (INR j * (2 * PI / INR m)).
Proof.
  intros cost c m sched Hm Hz HP Hc. pose proof PI_RGT_0 as P.
  assert (M : 1 <= INR m) by (apply (le_INR 1); lia).
  set (step := 2 * PI / INR m) in *.
  assert (ES : INR m * step = 2 * PI) by (unfold step; field; lra).
  assert (S0 : 0 < step) by (unfold step; apply Rdiv_lt_0_compat; lra).
  assert (G : forall i : nat, INR (i + 1) * step <= 2 * PI <-> (i < m)%nat).
  { intro i. rewrite <- ES. split; intro H.
    - apply Rmult_le_reg_r in H; auto. apply INR_le in H. lia.
    - apply Rmult_le_compat_r; [lra|]. apply le_INR. lia. }
  destruct (brute_force_best cost c step sched) as (k & K1 & K2 & K3 & _); auto.
  - split; auto. rewrite <- ES. nra.
  - replace (2 * PI / step) with (INR m) by (unfold step; field; lra).
    rewrite INR_IZR_INZ. apply IZR_lt. auto.
  - intros i Hi. apply Hc, G, Hi.
  - exists k. split; [apply G; auto|]. split; auto. intros j Hj. apply K3, G, Hj.
Qed.
Print Assumptions best_of_all_parts.

Example best_of_all_parts_ex : (0 < 25)%nat /\ (Z.of_nat 25 < 2147483648)%Z /\
  exists k, (k < 25)%nat /\ bf_computeBestAngle (fun a => Ok (- a)) (2 * PI / INR 25) (seq 0) = Ok (INR k * (2 * PI / INR 25)) /\
    forall j, (j < 25)%nat -> - (INR k * (2 * PI / INR 25)) <= - (INR j * (2 * PI / INR 25)).
Proof.
  split; [lia|]. split; [lia|].
  apply (best_of_all_parts (fun a => Ok (- a)) (fun a => - a) 25 (seq 0)); auto; lia.
Qed.

(** C312 is refuted with the numbers of the machine: with the step 2 pi / 25 only 24 of
    the 25 angles below the full turn are tried, so the angle returned need not be
    best.  (The default of one degree does try all 360.) *)
Theorem best_of_all_parts_refuted :
  bf_count_f degree_f = Ok 360%Z /\
  exists (m : nat) (cost : float -> float) (step a : float) (j : nat),
    step = (two_pi_f / float_of_Z (Z.of_nat m))%float /\ (j < m)%nat /\
    (bf_angle_f step j <? two_pi_f)%float = true /\
    bf_count_f step = Ok (Z.of_nat m - 1)%Z /\
    bf_computeBestAngle_f cost step = Ok a /\ (cost (bf_angle_f step j) <? cost a)%float = true.
Proof.
  split; [vm_compute; reflexivity|].
  exists 25%nat, PrimFloat.opp, (two_pi_f / float_of_Z 25)%float.
  exists (bf_angle_f (two_pi_f / float_of_Z 25) 23), 24%nat.
  split; [reflexivity|]. split; [lia|].
  split; [vm_compute; reflexivity|]. split; [vm_compute; reflexivity|]. split; vm_compute; reflexivity.
Qed.
Print Assumptions best_of_all_parts_refuted.

Lemma min_from_f_first (v : nat -> R) (costs : list float) : forall best at_ i,
  (at_ < i)%nat ->
  (forall j c, nth_error costs j = Some c -> ((c <? best)%float = true <-> v (i + j)%nat < v at_)) ->
  (forall j c j' c', nth_error costs j = Some c -> nth_error costs j' = Some c' -> ((c <? c')%float = true <-> v (i + j)%nat < v (i + j')%nat)) ->
  (forall j, (j < i)%nat -> v at_ <= v j) -> (forall j, (j < at_)%nat -> v at_ < v j) ->
  let k := min_from_f best at_ i costs in
  (k < i + length costs)%nat /\ (forall j, (j < i + length costs)%nat -> v k <= v j) /\ (forall j, (j < k)%nat -> v k < v j).
Proof.
  induction costs as [|c costs IH]; intros best at_ i Hi H1 H2 H3 H4; cbn [min_from_f length].
  - rewrite Nat.add_0_r. split; auto.
  - assert (T : forall j c0 j' c', nth_error costs j = Some c0 -> nth_error costs j' = Some c' ->
        ((c0 <? c')%float = true <-> v (S i + j)%nat < v (S i + j')%nat)).
    { intros j c0 j' c' A B. replace (S i + j)%nat with (i + S j)%nat by lia. replace (S i + j')%nat with (i + S j')%nat by lia. apply (H2 (S j) c0 (S j') c'); auto. }
    pose proof (H1 0%nat c eq_refl) as E. rewrite Nat.add_0_r in E.
    replace (i + S (length costs))%nat with (S i + length costs)%nat by lia.
    destruct (c <? best)%float eqn:C.
    + assert (L : v i < v at_) by (apply E; auto).
      apply IH; auto.
      * intros j c0 A. replace (S i + j)%nat with (i + S j)%nat by lia. pose proof (H2 (S j) c0 0%nat c A eq_refl) as F. rewrite Nat.add_0_r in F. auto.
      * intros j Hj. assert (j = i \/ (j < i)%nat) as [->|K] by lia; [lra|]. specialize (H3 j K). lra.
      * intros j Hj. specialize (H3 j Hj). lra.
    + assert (L : ~ v i < v at_) by (intro X; apply E in X; discriminate).
      apply IH; auto.
      * intros j c0 A. replace (S i + j)%nat with (i + S j)%nat by lia. apply (H1 (S j) c0); auto.
      * intros j Hj. assert (j = i \/ (j < i)%nat) as [->|K] by lia; [lra|]. auto.
Qed.

(** C312, what remains: of the angles that are tried the first of the best is returned,
    for costs that compare as real numbers [v] do; there is no angle for a step beyond the
    full turn, an exception for a negative one, and no count for the step 0. *)
Theorem best_angle_float : forall (cost : float -> float) (step : float) (z : Z), bf_count_f step = Ok z ->
  ((z < 0)%Z -> bf_computeBestAngle_f cost step = Throw LengthError) /\
  (z = 0%Z -> bf_computeBestAngle_f cost step = UB) /\
  forall v : nat -> R,
  (forall i j, (Z.of_nat i < z)%Z -> (Z.of_nat j < z)%Z ->
     ((cost (bf_angle_f step i) <? cost (bf_angle_f step j))%float = true <-> v i < v j)) -> (0 < z)%Z ->
  exists k, (Z.of_nat k < z)%Z /\ bf_computeBestAngle_f cost step = Ok (bf_angle_f step k) /\
    (forall j, (Z.of_nat j < z)%Z -> v k <= v j) /\ (forall j, (j < k)%nat -> v k < v j).
Proof.
  intros cost step z E. unfold bf_computeBestAngle_f. rewrite E. cbn [bind].
  split; [intro H; replace (z <? 0)%Z with true; auto; symmetry; apply Z.ltb_lt; auto|].
  split; [intros ->; reflexivity|]. intros v HV Hz.
  replace (z <? 0)%Z with false by (symmetry; apply Z.ltb_ge; lia).
  destruct (Z.to_nat z) as [|n] eqn:EN; [lia|]. cbn [seq map].
  set (costs := map (fun i => cost (bf_angle_f step i)) (seq 1 n)).
  assert (N : forall j c, nth_error costs j = Some c -> (j < n)%nat /\ c = cost (bf_angle_f step (1 + j))).
  { intros j c Hj. assert (Q : (j < n)%nat).
    { replace n with (length costs) by (unfold costs; rewrite map_length, seq_length; auto). apply nth_error_Some. congruence. }
    split; auto. unfold costs in Hj. rewrite nth_error_map, (nth_error_nth' (seq 1 n) 0%nat) in Hj by (rewrite seq_length; auto).
    rewrite seq_nth in Hj by auto. simpl in Hj. injection Hj as <-. auto. }
  destruct (min_from_f_first v costs (cost (bf_angle_f step 0)) 0%nat 1%nat) as (A & B & C).
  - lia.
  - intros j c Hj. destruct (N j c Hj) as [Q ->]. apply HV; lia.
  - intros j c j' c' Hj Hj'. destruct (N j c Hj) as [Q ->], (N j' c' Hj') as [Q' ->]. apply HV; lia.
  - intros j Hj. assert (j = 0%nat) as -> by lia. lra.
  - intros j Hj. lia.
  - set (k := min_from_f (cost (bf_angle_f step 0)) 0 1 costs) in *.
    assert (LC : length costs = n) by (unfold costs; rewrite map_length, seq_length; auto).
    exists k. split; [lia|]. split.
    + change (0%nat :: seq 1 n) with (seq 0 (S n)). unfold vec_index.
      rewrite (nth_error_nth' (seq 0 (S n)) 0%nat) by (rewrite seq_length; lia). rewrite seq_nth by lia. reflexivity.
    + split; auto. intros j Hj. apply B. lia.
Qed.
Print Assumptions best_angle_float.

Example best_angle_float_ex :
  bf_count_f 1 = Ok 6%Z /\ bf_count_f 7 = Ok 0%Z /\ bf_count_f (-1) = Ok (-6)%Z /\ bf_count_f 0 = UB /\
  bf_computeBestAngle_f (fun a => ((a - 4) * (a - 3))%float) 1 = Ok 3%float /\
  bf_computeBestAngle_f (fun a => a) 7 = UB /\ bf_computeBestAngle_f (fun a => a) (-1) = Throw LengthError.
Proof. repeat split; vm_compute; reflexivity. Qed.

(** Costs that compare as real numbers: here those of the six angles of step 1. *)
Example best_angle_float_ex2 : let v := fun i : nat => INR i in
  forall i j, (Z.of_nat i < 6)%Z -> (Z.of_nat j < 6)%Z -> ((bf_angle_f 1 i <? bf_angle_f 1 j)%float = true <-> v i < v j).
Proof.
  intros v i j Hi Hj. unfold v.
  assert (T : ((bf_angle_f 1 i <? bf_angle_f 1 j)%float = (i <? j)%nat)).
  { assert (Hi' : (i < 6)%nat) by lia. assert (Hj' : (j < 6)%nat) by lia. clear Hi Hj v.
    do 6 (destruct i as [|i]; [do 6 (destruct j as [|j]; [vm_compute; reflexivity|]); lia|]). lia. }
  rewrite T. split; intro H.
  - apply lt_INR. apply Nat.ltb_lt. auto.
  - apply Nat.ltb_lt. apply INR_lt. auto.
Qed.
