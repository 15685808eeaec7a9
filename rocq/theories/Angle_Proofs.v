(** Proofs about angles. *)
From Coq Require Import List Arith ZArith Lia Bool Reals Lra Psatz.
From Verif Require Import Outcome ListAux Num Point_Model Angle_Model Angle_Spec.
Import ListNotations.
Open Scope R_scope.

Lemma two_pi_pos : 0 < 2 * PI.
Proof. pose proof PI_RGT_0. lra. Qed.

Lemma floor_spec x : IZR (Int_part x) <= x < IZR (Int_part x) + 1.
Proof. destruct (base_Int_part x). lra. Qed.

Lemma floor_unique x (k : Z) : IZR k <= x < IZR k + 1 -> Int_part x = k.
Proof.
  intros [H1 H2]. destruct (floor_spec x) as [H3 H4].
  assert (A : (k < Int_part x + 1)%Z) by (apply lt_IZR; rewrite plus_IZR; lra).
  assert (B : (Int_part x < k + 1)%Z) by (apply lt_IZR; rewrite plus_IZR; lra).
  lia.
Qed.

Lemma fmod_pos a b : 0 < b -> 0 <= a -> 0 <= Rfmod a b < b.
Proof.
  intros Hb Ha. unfold Rfmod, Rtrunc.
  assert (Hq : 0 <= a / b) by (apply Rmult_le_pos; [lra|left; apply Rinv_0_lt_compat; lra]).
  destruct (Rle_dec 0 (a / b)); [|lra].
  destruct (floor_spec (a / b)) as [H1 H2]. set (k := IZR (Int_part (a / b))) in *.
  assert (E : a = b * (a / b)) by (field; lra). set (q := a / b) in *.
  rewrite E. split; nra.
Qed.

Lemma fmod_neg a b : 0 < b -> a <= 0 -> - b < Rfmod a b <= 0.
Proof.
  intros Hb Ha. unfold Rfmod, Rtrunc.
  assert (E : a = b * (a / b)) by (field; lra).
  destruct (Rle_dec 0 (a / b)) as [H|H].
  - assert (a / b = 0) by nra. rewrite H0 in *. rewrite (floor_unique 0 0) by (simpl; lra). simpl. lra.
  - destruct (floor_spec (- (a / b))) as [H1 H2]. rewrite opp_IZR.
    set (k := IZR (Int_part (- (a / b)))) in *. set (q := a / b) in *. rewrite E. split; nra.
Qed.

Lemma fmod_congr a b : exists k : Z, Rfmod a b = a + IZR k * b.
Proof. unfold Rfmod. exists (- Rtrunc (a / b))%Z. rewrite opp_IZR. lra. Qed.

Lemma mod_rnd_range rnd a b : rounding rnd -> 0 < b -> 0 <= g_mod_rnd rnd a b < b.
Proof.
  intros [R0 RM] Hb. unfold g_mod_rnd. apply fmod_pos; auto. rewrite <- R0. apply RM.
  destruct (Rle_dec 0 a).
  - pose proof (fmod_pos a b Hb r). lra.
  - pose proof (fmod_neg a b Hb). lra.
Qed.

Lemma rounding_id : rounding (fun x => x).
Proof. split; auto. Qed.

Lemma mod_range a b : 0 < b -> 0 <= g_mod a b < b.
Proof. apply mod_rnd_range, rounding_id. Qed.

Lemma mod_congr a b : exists k : Z, g_mod a b = a + IZR k * b.
Proof.
  unfold g_mod, g_mod_rnd. destruct (fmod_congr a b) as [k1 E1].
  destruct (fmod_congr (Rfmod a b + b) b) as [k2 E2]. exists (k1 + 1 + k2)%Z.
  rewrite E2, E1, !plus_IZR. simpl. lra.
Qed.

Lemma mod2_range a : 0 <= mod_2pi a < 2 * PI.
Proof. apply mod_range, two_pi_pos. Qed.

Lemma mod2_congr a : congruent (mod_2pi a) a.
Proof. apply mod_congr. Qed.

Lemma congruent_refl a : congruent a a.
Proof. exists 0%Z. simpl. lra. Qed.
Lemma congruent_sym a b : congruent a b -> congruent b a.
Proof. intros [k E]. exists (- k)%Z. rewrite opp_IZR. lra. Qed.
Lemma congruent_trans a b c : congruent a b -> congruent b c -> congruent a c.
Proof. intros [k E] [k' E']. exists (k + k')%Z. rewrite plus_IZR. lra. Qed.

Lemma small_multiple (k : Z) : - (2 * PI) < IZR k * (2 * PI) < 2 * PI -> k = 0%Z.
Proof.
  intros [H1 H2]. pose proof two_pi_pos.
  assert (-1 < IZR k < 1) by (split; nra).
  assert (-1 < k)%Z by (apply lt_IZR; simpl; lra). assert (k < 1)%Z by (apply lt_IZR; simpl; lra). lia.
Qed.

Lemma mod2_unique a x : 0 <= x < 2 * PI -> congruent x a -> mod_2pi a = x.
Proof.
  intros Hx [k E]. destruct (mod2_congr a) as [k' E']. pose proof (mod2_range a).
  assert (k' - k = 0)%Z.
  { apply small_multiple. rewrite minus_IZR. lra. }
  assert (k' = k) by lia. subst. lra.
Qed.

Lemma mod2_eq_iff a b : mod_2pi a = mod_2pi b <-> congruent a b.
Proof.
  split; intro H.
  - eapply congruent_trans; [apply congruent_sym, mod2_congr|]. rewrite H. apply mod2_congr.
  - symmetry. apply mod2_unique; [apply mod2_range|]. eapply congruent_trans; [apply mod2_congr|auto].
Qed.

Lemma round_spec x : Rabs (x - IZR (Rround x)) <= / 2.
Proof.
  unfold Rround. destruct (Rle_dec 0 x).
  - destruct (floor_spec (x + / 2)). apply Rabs_le. lra.
  - destruct (floor_spec (- x + / 2)). rewrite opp_IZR. apply Rabs_le. lra.
Qed.

Lemma to_int_ok z : (-2147483648 <= z <= 2147483647)%Z -> to_int z = Ok z.
Proof. intro H. unfold to_int. destruct (Z.leb_spec (-2147483648) z), (Z.leb_spec z 2147483647); simpl; auto; lia. Qed.

Lemma angCont_ok prev v :
  (-2147483646 <= Rround (prev / (2 * PI)) <= 2147483646)%Z ->
  exists r, getAngContinuity prev v = Ok r /\ congruent r v /\ Rabs (r - prev) <= PI.
Proof.
  intro HI. unfold getAngContinuity. set (id := Rround (prev / (2 * PI))) in *.
  pose proof two_pi_pos as HP. pose proof (round_spec (prev / (2 * PI))) as HR. fold id in HR.
  assert (Hr : Rabs (prev - IZR id * (2 * PI)) <= PI).
  { replace (prev - IZR id * (2 * PI)) with ((prev / (2 * PI) - IZR id) * (2 * PI)) by (field; lra).
    rewrite Rabs_mult, (Rabs_right (2 * PI)) by lra. nra. }
  assert (Hr' : - PI <= prev - IZR id * (2 * PI) <= PI).
  { unfold Rabs in Hr; destruct (Rcase_abs (prev - IZR id * (2 * PI))); lra. }
  clear Hr. pose proof (mod2_range v) as HM. destruct (mod2_congr v) as [kv Ev].
  set (m := mod_2pi v) in *.
  assert (C : forall k : Z, congruent (IZR k * (2 * PI) + m) v).
  { intro k. exists (k + kv)%Z. rewrite plus_IZR. lra. }
  assert (N : forall k : Z, (id - 2 <= k <= id + 1)%Z -> getNearVal k v = Ok (IZR k * (2 * PI) + m)).
  { intros k Hk. unfold getNearVal. rewrite to_int_ok by lia. reflexivity. }
  cbn [angCont_loop].
  replace (id + -2 + 1)%Z with (id - 1)%Z by lia. replace (id + -2)%Z with (id - 2)%Z by lia.
  replace (id + -1 + 1)%Z with id by lia. replace (id + -1)%Z with (id - 1)%Z by lia.
  replace (id + 0 + 1)%Z with (id + 1)%Z by lia. replace (id + 0)%Z with id by lia.
  rewrite !N by lia. cbn [bind].
  repeat match goal with |- context [IZR (id + ?k)] => rewrite (plus_IZR id k) end.
  repeat match goal with |- context [IZR (id - ?k)] => rewrite (minus_IZR id k) end.
  destruct (Rlt_dec (Rabs ((IZR id - 2) * (2 * PI) + m - prev)) (Rabs ((IZR id - 1) * (2 * PI) + m - prev))) as [H1|H1].
  { exfalso. unfold Rabs in H1.
    destruct (Rcase_abs ((IZR id - 2) * (2 * PI) + m - prev)), (Rcase_abs ((IZR id - 1) * (2 * PI) + m - prev)); lra. }
  destruct (Rlt_dec (Rabs ((IZR id - 1) * (2 * PI) + m - prev)) (Rabs (IZR id * (2 * PI) + m - prev))) as [H2|H2].
  { eexists. split; [reflexivity|]. split; [rewrite <- minus_IZR; apply C|].
    unfold Rabs in *. destruct (Rcase_abs ((IZR id - 1) * (2 * PI) + m - prev)), (Rcase_abs (IZR id * (2 * PI) + m - prev)); lra. }
  destruct (Rlt_dec (Rabs (IZR id * (2 * PI) + m - prev)) (Rabs ((IZR id + 1) * (2 * PI) + m - prev))) as [H3|H3].
  { eexists. split; [reflexivity|]. split; [apply C|].
    unfold Rabs in *. destruct (Rcase_abs ((IZR id - 1) * (2 * PI) + m - prev)), (Rcase_abs (IZR id * (2 * PI) + m - prev)); lra. }
  eexists. split; [reflexivity|]. split; [rewrite <- plus_IZR; apply C|].
  unfold Rabs in *. destruct (Rcase_abs ((IZR id + 1) * (2 * PI) + m - prev)), (Rcase_abs (IZR id * (2 * PI) + m - prev)); lra.
Qed.

(** Angles for which no conversion to int overflows. *)
Lemma round_small prev : Rabs prev <= 10 ^ 10 -> (-2147483646 <= Rround (prev / (2 * PI)) <= 2147483646)%Z.
Proof.
  intro H. pose proof (round_spec (prev / (2 * PI))) as HR.
  assert (HP : 6 <= 2 * PI). { pose proof PI2_3_2. lra. }
  assert (HD : Rabs (prev / (2 * PI)) <= 10 ^ 10 / 6).
  { unfold Rdiv. rewrite Rabs_mult, (Rabs_right (/ (2 * PI))) by (left; apply Rinv_0_lt_compat; lra).
    apply Rmult_le_compat; auto using Rabs_pos. left; apply Rinv_0_lt_compat; lra. apply Rinv_le_contravar; lra. }
  set (q := prev / (2 * PI)) in *.
  assert (HZ : Rabs (IZR (Rround q)) <= 10 ^ 10 / 6 + / 2).
  { replace (IZR (Rround q)) with (q + - (q - IZR (Rround q))) by lra.
    eapply Rle_trans; [apply Rabs_triang|]. rewrite Rabs_Ropp. lra. }
  split; apply le_IZR; unfold Rabs in HZ; destruct (Rcase_abs (IZR (Rround q))); lra.
Qed.

Fixpoint near_chain (prev : R) (l : list R) : Prop :=
  match l with [] => True | x :: l => Rabs (x - prev) <= PI /\ near_chain x l end.

Lemma angCont_from_ok vals : forall prev, Rabs prev + INR (length vals) * PI <= 10 ^ 10 ->
  exists rs, angCont_from prev vals = Ok rs /\ Forall2 congruent rs vals /\ near_chain prev rs.
Proof.
  induction vals as [|v vals IH]; intros prev H.
  - exists []. simpl. auto.
  - cbn [length] in H. rewrite S_INR in H. pose proof PI_RGT_0.
    assert (0 <= INR (length vals)) by apply pos_INR.
    destruct (angCont_ok prev v) as (r & E & C & D). { apply round_small. nra. }
    destruct (IH r) as (rs & E' & C' & D').
    { assert (Rabs r <= Rabs prev + PI).
      { replace r with (prev + (r - prev)) by lra. eapply Rle_trans; [apply Rabs_triang|]. lra. }
      nra. }
    exists (r :: rs). cbn [angCont_from]. rewrite E. cbn [bind]. rewrite E'. cbn [bind].
    split; auto. split; [constructor; auto|]. simpl. auto.
Qed.

(** Circular distance. *)
Lemma diffAbs_circular a b : circular_distance a b (getAngleDiffAbs a b).
Proof.
  unfold getAngleDiffAbs, circular_distance. pose proof (mod2_range (b - a)) as HM.
  destruct (mod2_congr (b - a)) as [k0 E0]. set (m := mod_2pi (b - a)) in *. pose proof PI_RGT_0 as HP.
  split.
  - destruct (Rle_dec m PI).
    + exists (- k0)%Z. rewrite opp_IZR. rewrite (Rabs_left1 (m - PI)) by lra.
      replace (a - b + - IZR k0 * (2 * PI)) with (- m) by lra. rewrite Rabs_Ropp, Rabs_right by lra. lra.
    + exists (1 - k0)%Z. rewrite minus_IZR. rewrite (Rabs_right (m - PI)) by lra.
      replace (a - b + (1 - IZR k0) * (2 * PI)) with (2 * PI - m) by lra. rewrite Rabs_right by lra. lra.
  - intro k. replace (a - b + IZR k * (2 * PI)) with (IZR (k + k0) * (2 * PI) - m) by (rewrite plus_IZR; lra).
    destruct (Z_lt_le_dec (k + k0) 1) as [Hk|Hk].
    + assert (IZR (k + k0) <= 0) by (apply IZR_le; lia).
      rewrite (Rabs_left1 (IZR (k + k0) * (2 * PI) - m)) by nra.
      unfold Rabs. destruct (Rcase_abs (m - PI)); nra.
    + assert (1 <= IZR (k + k0)) by (apply IZR_le; lia).
      rewrite (Rabs_right (IZR (k + k0) * (2 * PI) - m)) by nra.
      unfold Rabs. destruct (Rcase_abs (m - PI)); nra.
Qed.

Lemma circular_unique a b d d' : circular_distance a b d -> circular_distance a b d' -> d = d'.
Proof. intros [[k E] H] [[k' E'] H']. pose proof (H k'). pose proof (H' k). rewrite <- E, <- E' in *. lra. Qed.

Lemma circular_sym a b d : circular_distance a b d -> circular_distance b a d.
Proof.
  intros [[k E] H]. split.
  - exists (- k)%Z. rewrite E, opp_IZR, <- Rabs_Ropp. f_equal. lra.
  - intro k'. replace (b - a + IZR k' * (2 * PI)) with (- (a - b + IZR (- k') * (2 * PI))) by (rewrite opp_IZR; lra).
    rewrite Rabs_Ropp. auto.
Qed.

Lemma diffAbs_triangle a b c : getAngleDiffAbs a c <= getAngleDiffAbs a b + getAngleDiffAbs b c.
Proof.
  destruct (diffAbs_circular a b) as [[k E] _]. destruct (diffAbs_circular b c) as [[k' E'] _].
  destruct (diffAbs_circular a c) as [_ H]. specialize (H (k + k')%Z). rewrite plus_IZR in H.
  rewrite E, E'. eapply Rle_trans; [exact H|]. eapply Rle_trans; [|apply Rabs_triang]. right. f_equal. lra.
Qed.

Lemma diffAbs_range a b : 0 <= getAngleDiffAbs a b <= PI.
Proof.
  unfold getAngleDiffAbs. pose proof (mod2_range (b - a)). pose proof PI_RGT_0.
  unfold Rabs. destruct (Rcase_abs (mod_2pi (b - a) - PI)); lra.
Qed.

Lemma diffAbs_zero a b : getAngleDiffAbs a b = 0 <-> congruent a b.
Proof.
  split; intro H.
  - destruct (diffAbs_circular a b) as [[k E] _]. rewrite H in E. exists (- k)%Z. rewrite opp_IZR.
    unfold Rabs in E. destruct (Rcase_abs (a - b + IZR k * (2 * PI))); lra.
  - destruct H as [k E]. destruct (diffAbs_circular a b) as [_ H]. specialize (H (- k)%Z). rewrite opp_IZR in H.
    replace (a - b + - IZR k * (2 * PI)) with 0 in H by lra. rewrite Rabs_R0 in H. pose proof (diffAbs_range a b). lra.
Qed.

Lemma circular_congr a a' b b' d : congruent a a' -> congruent b b' -> circular_distance a b d -> circular_distance a' b' d.
Proof.
  intros [k E] [k' E'] [[j Ej] H]. split.
  - exists (j + k - k')%Z. rewrite Ej. f_equal. rewrite minus_IZR, plus_IZR. lra.
  - intro i. specialize (H (i - k + k')%Z). rewrite plus_IZR, minus_IZR in H.
    replace (a' - b' + IZR i * (2 * PI)) with (a - b + (IZR i - IZR k + IZR k') * (2 * PI)) by lra. auto.
Qed.

(** Within half a turn the difference is the circular distance. *)
Lemma circular_small a b : Rabs (a - b) <= PI -> circular_distance a b (Rabs (a - b)).
Proof.
  intro H. pose proof PI_RGT_0. split.
  - exists 0%Z. f_equal. simpl. lra.
  - intro k. destruct (Z.eq_dec k 0) as [->|Hk]; [right; f_equal; simpl; lra|].
    assert (1 <= Rabs (IZR k)).
    { rewrite <- abs_IZR. apply IZR_le. lia. }
    replace (a - b + IZR k * (2 * PI)) with (IZR k * (2 * PI) - (b - a)) by lra.
    eapply Rle_trans; [|apply Rabs_triang_inv]. rewrite Rabs_mult, (Rabs_right (2 * PI)) by lra.
    rewrite (Rabs_minus_sym b a). nra.
Qed.

Lemma avg_ok a b : getAngleDiffAbs (getAngleAvg a b) a = getAngleDiffAbs a b / 2 /\
  getAngleDiffAbs (getAngleAvg a b) b = getAngleDiffAbs a b / 2.
Proof.
  pose proof (mod2_range a) as Ha. pose proof (mod2_range b) as Hb. pose proof PI_RGT_0 as HP.
  assert (X : forall u v d, congruent v (mod_2pi v) -> circular_distance u (mod_2pi v) d -> getAngleDiffAbs u v = d).
  { intros u v d C D. eapply circular_unique; [apply diffAbs_circular|].
    eapply circular_congr; [apply congruent_refl|apply congruent_sym; exact C|exact D]. }
  assert (Xa : congruent a (mod_2pi a)) by (apply congruent_sym, mod2_congr).
  assert (Xb : congruent b (mod_2pi b)) by (apply congruent_sym, mod2_congr).
  assert (D : circular_distance a b (getAngleDiffAbs a b)) by apply diffAbs_circular.
  apply (circular_congr a (mod_2pi a) b (mod_2pi b)) in D; auto.
  unfold getAngleAvg. set (ma := mod_2pi a) in *. set (mb := mod_2pi b) in *.
  destruct (Rlt_dec (Rabs (mb - ma)) PI) as [H|H].
  - rewrite (circular_unique _ _ _ _ D (circular_small ma mb ltac:(rewrite Rabs_minus_sym; lra))).
    assert (E1 : Rabs (/ 2 * (ma + mb) - ma) = Rabs (ma - mb) / 2).
    { replace (/ 2 * (ma + mb) - ma) with (- (ma - mb) * / 2) by lra.
      rewrite Rabs_mult, Rabs_Ropp, (Rabs_right (/ 2)) by lra. lra. }
    assert (E2 : Rabs (/ 2 * (ma + mb) - mb) = Rabs (ma - mb) / 2).
    { replace (/ 2 * (ma + mb) - mb) with ((ma - mb) * / 2) by lra.
      rewrite Rabs_mult, (Rabs_right (/ 2)) by lra. lra. }
    assert (B : Rabs (ma - mb) < PI) by (rewrite Rabs_minus_sym; auto).
    split; apply X; auto.
    + fold ma. rewrite <- E1. apply circular_small. lra.
    + fold mb. rewrite <- E2. apply circular_small. lra.
  - assert (Hd : PI <= Rabs (ma - mb)) by (rewrite Rabs_minus_sym; lra).
    assert (DD : getAngleDiffAbs a b = 2 * PI - Rabs (ma - mb)).
    { eapply circular_unique; [exact D|].
      unfold Rabs in Hd |- *. destruct (Rcase_abs (ma - mb)).
      - assert (C : circular_distance (ma + 2 * PI) mb (Rabs (ma + 2 * PI - mb)))
          by (apply circular_small; rewrite Rabs_right; lra).
        rewrite Rabs_right in C by lra. replace (2 * PI - - (ma - mb)) with (ma + 2 * PI - mb) by lra.
        eapply circular_congr; [|apply congruent_refl|exact C]. exists 1%Z. simpl. lra.
      - assert (C : circular_distance (ma - 2 * PI) mb (Rabs (ma - 2 * PI - mb)))
          by (apply circular_small; rewrite Rabs_left1; lra).
        rewrite Rabs_left1 in C by lra. replace (2 * PI - (ma - mb)) with (- (ma - 2 * PI - mb)) by lra.
        eapply circular_congr; [|apply congruent_refl|exact C]. exists (-1)%Z. simpl. lra. }
    rewrite DD.
    assert (Y : forall m1 m2, 0 <= m1 < 2 * PI -> 0 <= m2 < 2 * PI -> PI <= Rabs (m1 - m2) ->
      circular_distance (/ 2 * (m1 + m2) + PI) m1 ((2 * PI - Rabs (m1 - m2)) / 2)).
    { intros m1 m2 H1 H2 HD. unfold Rabs in HD |- *. destruct (Rcase_abs (m1 - m2)).
      - (* m1 < m2 *)
        assert (C : circular_distance (/ 2 * (m1 + m2) - PI) m1 (Rabs (/ 2 * (m1 + m2) - PI - m1)))
          by (apply circular_small; unfold Rabs; destruct (Rcase_abs (/ 2 * (m1 + m2) - PI - m1)); lra).
        rewrite Rabs_left1 in C by lra.
        replace ((2 * PI - - (m1 - m2)) / 2) with (- (/ 2 * (m1 + m2) - PI - m1)) by lra.
        eapply circular_congr; [|apply congruent_refl|exact C]. exists (-1)%Z. simpl. lra.
      - assert (C : circular_distance (/ 2 * (m1 + m2) + PI) m1 (Rabs (/ 2 * (m1 + m2) + PI - m1)))
          by (apply circular_small; unfold Rabs; destruct (Rcase_abs (/ 2 * (m1 + m2) + PI - m1)); lra).
        rewrite Rabs_right in C by lra.
        replace ((2 * PI - (m1 - m2)) / 2) with (/ 2 * (m1 + m2) + PI - m1) by lra. exact C. }
    split.
    + apply X; [auto|]. apply (Y ma mb); auto.
    + apply X; [auto|]. fold mb. replace (ma + mb) with (mb + ma) by lra. rewrite (Rabs_minus_sym ma mb).
      apply (Y mb ma); auto. rewrite Rabs_minus_sym; auto.
Qed.
