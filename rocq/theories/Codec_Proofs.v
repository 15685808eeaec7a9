(** Proofs about the text format of doubles: logarithms and rounding. *)
From Coq Require Import Ascii String ZArith Bool Arith Lia Reals Lra Floats SpecFloat List.
From Verif Require Import Outcome Num Point_Model Path_Model Text_Model Text_Spec Text_Proofs Codec_Model Codec_Spec.
Import ListNotations.
Local Open Scope R_scope.

(** *** Powers *)
Section Power.
  Variable b : Z.
  Hypothesis B : (2 <= b)%Z.
  Lemma b_pos : 0 < IZR b.
  Proof. apply IZR_lt; lia. Qed.
  Lemma b_gt1 : 1 < IZR b.
  Proof. apply IZR_lt; lia. Qed.
  Definition pw (k : Z) : R := powerRZ (IZR b) k.
  Lemma pw_pos k : 0 < pw k.
  Proof. apply powerRZ_lt, b_pos. Qed.
  Lemma pw_add j k : pw (j + k) = pw j * pw k.
  Proof. apply powerRZ_add. pose proof b_pos; lra. Qed.
  Lemma pw_0 : pw 0 = 1.
  Proof. reflexivity. Qed.
  Lemma pw_nat n : pw (Z.of_nat n) = IZR (b ^ Z.of_nat n).
  Proof.
    induction n as [|n IH]; [reflexivity|]. rewrite Nat2Z.inj_succ. unfold Z.succ. rewrite pw_add, IH, Z.pow_add_r by lia.
    rewrite mult_IZR. f_equal. rewrite Z.pow_1_r. unfold pw. cbn [powerRZ]. change (Pos.to_nat 1) with 1%nat. now rewrite pow_1.
  Qed.
  Lemma pw_IZR k : (0 <= k)%Z -> pw k = IZR (b ^ k).
  Proof. intros H. rewrite <- (Z2Nat.id k H). apply pw_nat. Qed.
  Lemma pw_opp k : pw (- k) * pw k = 1.
  Proof. rewrite <- pw_add. now replace (- k + k)%Z with 0%Z by lia. Qed.
  Lemma pw_ge1 k : (0 <= k)%Z -> 1 <= pw k.
  Proof. intros H. rewrite pw_IZR by exact H. apply IZR_le. assert (0 < b ^ k)%Z by (apply Z.pow_pos_nonneg; lia). lia. Qed.
  Lemma pw_le j k : (j <= k)%Z -> pw j <= pw k.
  Proof.
    intros H. replace k with (j + (k - j))%Z by lia. rewrite pw_add. pose proof (pw_pos j). pose proof (pw_ge1 (k - j) ltac:(lia)).
    rewrite <- (Rmult_1_r (pw j)) at 1. apply Rmult_le_compat_l; lra.
  Qed.
  Lemma pw_lt j k : (j < k)%Z -> pw j < pw k.
  Proof.
    intros H. apply Rlt_le_trans with (pw (j + 1)); [|apply pw_le; lia]. rewrite pw_add.
    assert (E : pw 1 = IZR b) by (unfold pw; cbn [powerRZ]; change (Pos.to_nat 1) with 1%nat; apply pow_1).
    rewrite E. pose proof (pw_pos j). pose proof b_gt1. rewrite <- (Rmult_1_r (pw j)) at 1. now apply Rmult_lt_compat_l.
  Qed.
  Lemma pw_lt_inv j k : pw j < pw k -> (j < k)%Z.
  Proof. intros H. destruct (Z_lt_le_dec j k) as [L|L]; auto. apply pw_le in L. lra. Qed.
  Lemma pw_le_inv j k : pw j <= pw k -> (j <= k)%Z.
  Proof. intros H. destruct (Z_lt_le_dec k j) as [L|L]; auto. apply pw_lt in L. lra. Qed.

  (** *** Fractions *)
  Lemma scale_ok num den k a c : (0 < num)%Z -> (0 < den)%Z -> scale num den b k = (a, c) ->
    (0 < a)%Z /\ (0 < c)%Z /\ IZR a / IZR c = IZR num / IZR den * pw k.
  Proof.
    intros N D. unfold scale. destruct (Z.leb_spec 0 k) as [L|L]; intros E; injection E as <- <-.
    - assert (0 < b ^ k)%Z by (apply Z.pow_pos_nonneg; lia). split; [nia|]. split; auto.
      rewrite mult_IZR, pw_IZR by exact L. assert (IZR den <> 0) by (apply IZR_neq; lia). field; auto.
    - assert (P : (0 < b ^ (- k))%Z) by (apply Z.pow_pos_nonneg; lia). split; auto. split; [nia|].
      rewrite mult_IZR, <- pw_IZR by lia. assert (IZR den <> 0) by (apply IZR_neq; lia). pose proof (pw_pos (- k)). pose proof (pw_opp k).
      assert (E : pw k = / pw (- k)) by (field_simplify_eq; [lra|lra]). rewrite E. field. split; lra.
  Qed.

  (** *** Logarithms *)
  Variable lg : Z -> Z.
  Hypothesis LG : forall q, (1 <= q)%Z -> (0 <= lg q /\ b ^ lg q <= q < b ^ (lg q + 1))%Z.
  Lemma logq_ok num den : (0 < num)%Z -> (0 < den)%Z ->
    let x := if (den <=? num)%Z then lg (num / den) else (- (1 + lg ((den - 1) / num)))%Z in
    pw x <= IZR num / IZR den < pw (x + 1).
  Proof.
    intros N D. assert (Dp : 0 < IZR den) by (apply IZR_lt; lia). assert (Np : 0 < IZR num) by (apply IZR_lt; lia).
    assert (Q : forall a, a * IZR den <= IZR num -> a <= IZR num / IZR den).
    { intros a H. apply Rmult_le_reg_r with (IZR den); auto. unfold Rdiv. rewrite Rmult_assoc, Rinv_l, Rmult_1_r by lra. exact H. }
    assert (Q' : forall a, IZR num < a * IZR den -> IZR num / IZR den < a).
    { intros a H. apply Rmult_lt_reg_r with (IZR den); auto. unfold Rdiv. rewrite Rmult_assoc, Rinv_l, Rmult_1_r by lra. exact H. }
    cbv zeta. destruct (Z.leb_spec den num) as [L|L].
    - assert (G : (1 <= num / den)%Z) by (apply Z.div_le_lower_bound; lia). destruct (LG _ G) as [P [A C]].
      pose proof (Z.div_mod num den ltac:(lia)) as E. pose proof (Z.mod_pos_bound num den ltac:(lia)) as M.
      rewrite !pw_IZR by lia. split; [apply Q|apply Q']; rewrite <- mult_IZR; (apply IZR_le || apply IZR_lt); nia.
    - assert (G : (1 <= (den - 1) / num)%Z) by (apply Z.div_le_lower_bound; lia). destruct (LG _ G) as [P [A C]].
      set (t := ((den - 1) / num)%Z) in *. set (r := lg t) in *.
      pose proof (Z.div_mod (den - 1) num ltac:(lia)) as E. pose proof (Z.mod_pos_bound (den - 1) num ltac:(lia)) as M. fold t in E.
      assert (E1 : (den <= num * b ^ (r + 1))%Z) by nia. assert (E2 : (num * b ^ r < den)%Z) by nia.
      apply IZR_le in E1. apply IZR_lt in E2. rewrite mult_IZR, <- pw_IZR in E1 by lia. rewrite mult_IZR, <- pw_IZR in E2 by lia.
      replace (- (1 + r) + 1)%Z with (- r)%Z by lia.
      pose proof (pw_opp r) as O1. pose proof (pw_opp (r + 1)) as O2. replace (- (1 + r))%Z with (- (r + 1))%Z by lia.
      pose proof (pw_pos (- r)). pose proof (pw_pos (- (r + 1))). split; [apply Q|apply Q'].
      + apply Rle_trans with (pw (- (r + 1)) * (IZR num * pw (r + 1))); [now apply Rmult_le_compat_l; lra|].
        replace (pw (- (r + 1)) * (IZR num * pw (r + 1))) with (IZR num * (pw (- (r + 1)) * pw (r + 1))) by ring. rewrite O2. lra.
      + apply Rle_lt_trans with (pw (- r) * (IZR num * pw r)); [|now apply Rmult_lt_compat_l].
        replace (pw (- r) * (IZR num * pw r)) with (IZR num * (pw (- r) * pw r)) by ring. rewrite O1. lra.
  Qed.
End Power.

Lemma log2_ok q : (1 <= q)%Z -> (0 <= Z.log2 q /\ 2 ^ Z.log2 q <= q < 2 ^ (Z.log2 q + 1))%Z.
Proof. intros H. split; [apply Z.log2_nonneg|]. pose proof (Z.log2_spec q ltac:(lia)) as S. unfold Z.succ in S. exact S. Qed.

Lemma log10_ok : forall fuel q, (1 <= q < 2 ^ (Z.of_nat fuel + 1))%Z ->
  (0 <= log10 fuel q /\ 10 ^ log10 fuel q <= q < 10 ^ (log10 fuel q + 1))%Z.
Proof.
  induction fuel as [|fuel IH]; intros q H; cbn [log10].
  - change (2 ^ (Z.of_nat 0 + 1))%Z with 2%Z in H. change (10 ^ 0)%Z with 1%Z. change (10 ^ (0 + 1))%Z with 10%Z. lia.
  - destruct (Z.ltb_spec q 10) as [L|L].
    + change (10 ^ 0)%Z with 1%Z. change (10 ^ (0 + 1))%Z with 10%Z. lia.
    + replace (Z.of_nat (S fuel) + 1)%Z with (Z.of_nat fuel + 1 + 1)%Z in H by lia.
      rewrite (Z.pow_add_r 2 (Z.of_nat fuel + 1) 1) in H by lia. change (2 ^ 1)%Z with 2%Z in H.
      pose proof (Z.div_mod q 10 ltac:(lia)) as D. pose proof (Z.mod_pos_bound q 10 ltac:(lia)) as M.
      destruct (IH (q / 10)%Z) as [P [A C]]; [lia|]. split; [lia|].
      set (r := log10 fuel (q / 10)) in *. replace (1 + r + 1)%Z with (r + 1 + 1)%Z by lia. replace (1 + r)%Z with (r + 1)%Z by lia.
      rewrite (Z.pow_add_r 10 (r + 1) 1) by lia. change (10 ^ 1)%Z with 10%Z.
      rewrite (Z.pow_add_r 10 r 1) in * by lia. change (10 ^ 1)%Z with 10%Z in *. lia.
Qed.
Lemma Zlog10_ok q : (1 <= q)%Z -> (0 <= Zlog10 q /\ 10 ^ Zlog10 q <= q < 10 ^ (Zlog10 q + 1))%Z.
Proof.
  intros H. apply log10_ok. rewrite Z2Nat.id by apply Z.log2_nonneg. split; auto. apply (log2_ok q H).
Qed.

Lemma log2q_ok num den : (0 < num)%Z -> (0 < den)%Z ->
  pow2 (log2q num den) <= IZR num / IZR den < pow2 (log2q num den + 1).
Proof. intros N D. exact (logq_ok 2 ltac:(lia) Z.log2 log2_ok num den N D). Qed.
Lemma log10q_ok num den : (0 < num)%Z -> (0 < den)%Z ->
  pow10 (log10q num den) <= IZR num / IZR den < pow10 (log10q num den + 1).
Proof. intros N D. exact (logq_ok 10 ltac:(lia) Zlog10 Zlog10_ok num den N D). Qed.

(** *** Rounding *)
Lemma rhe_half a b : (0 < b)%Z -> (2 * Z.abs (a - b * rhe a b) <= b)%Z.
Proof.
  intros B. unfold rhe. pose proof (Z.div_mod a b ltac:(lia)) as D. pose proof (Z.mod_pos_bound a b B) as M.
  destruct (Z.ltb_spec (2 * (a mod b)) b) as [L|L]; cbn [orb].
  - replace (a - b * (a / b))%Z with (a mod b)%Z by lia. lia.
  - destruct (Z.eqb_spec (2 * (a mod b)) b) as [E|E]; cbn [andb].
    + destruct (Z.even (a / b)); [replace (a - b * (a / b))%Z with (a mod b)%Z by lia|replace (a - b * (a / b + 1))%Z with (a mod b - b)%Z by lia]; lia.
    + replace (a - b * (a / b + 1))%Z with (a mod b - b)%Z by lia. lia.
Qed.
Lemma rhe_R a b : (0 < b)%Z -> Rabs (IZR (rhe a b) - IZR a / IZR b) <= / 2.
Proof.
  intros B. pose proof (rhe_half a b B) as H. assert (Bp : 0 < IZR b) by (apply IZR_lt; lia).
  apply IZR_le in H. rewrite mult_IZR, abs_IZR, minus_IZR, mult_IZR in H.
  replace (IZR (rhe a b) - IZR a / IZR b) with (- ((IZR a - IZR b * IZR (rhe a b)) * / IZR b)) by (field; lra).
  rewrite Rabs_Ropp, Rabs_mult, (Rabs_right (/ IZR b)) by (apply Rle_ge, Rlt_le, Rinv_0_lt_compat; auto).
  apply Rmult_le_reg_r with (IZR b); auto. rewrite Rmult_assoc, Rinv_l, Rmult_1_r by lra. lra.
Qed.
Lemma rhe_near a b n : (0 < b)%Z -> Rabs (IZR n - IZR a / IZR b) < / 2 -> rhe a b = n.
Proof.
  intros B H. pose proof (rhe_R a b B) as K.
  assert (D : Rabs (IZR (rhe a b) - IZR n) < 1).
  { replace (IZR (rhe a b) - IZR n) with ((IZR (rhe a b) - IZR a / IZR b) - (IZR n - IZR a / IZR b)) by ring.
    eapply Rle_lt_trans; [apply Rabs_triang|]. rewrite Rabs_Ropp. lra. }
  rewrite <- minus_IZR, <- abs_IZR in D. apply lt_IZR in D. lia.
Qed.

(** *** Digits *)
Lemma half_abs (x y : R) : Rabs (x - y) <= / 2 -> y - / 2 <= x <= y + / 2.
Proof. intros H. pose proof (Rle_abs (x - y)). pose proof (Rle_abs (- (x - y))) as K. rewrite Rabs_Ropp in K. lra. Qed.

Lemma sig_digits_ok P num den d x : (1 <= P)%nat -> (0 < num)%Z -> (0 < den)%Z -> sig_digits P num den = (d, x) ->
  (10 ^ (Z.of_nat P - 1) <= d < 10 ^ Z.of_nat P)%Z /\
  exists x0, pow10 x0 <= IZR num / IZR den < pow10 (x0 + 1) /\
    Rabs (IZR d * pow10 (x - (Z.of_nat P - 1)) - IZR num / IZR den) <= / 2 * pow10 (x0 - (Z.of_nat P - 1)).
Proof.
  intros HP N D E. unfold sig_digits in E. set (p := Z.of_nat P) in *. assert (Hp : (1 <= p)%Z) by lia.
  set (x0 := log10q num den) in *. pose proof (log10q_ok num den N D) as LQ. fold x0 in LQ.
  set (v := IZR num / IZR den) in *.
  destruct (scale num den 10 (p - 1 - x0)) as [a b] eqn:SC.
  destruct (scale_ok 10 ltac:(lia) _ _ _ _ _ N D SC) as [A [B Q]]. fold v in Q. change (pw 10) with pow10 in Q.
  assert (PP : forall k, 0 < pow10 k) by (intros k; apply (pw_pos 10); lia).
  assert (PA : forall j k, pow10 (j + k) = pow10 j * pow10 k) by (intros; apply (pw_add 10); lia).
  assert (R1 : IZR (10 ^ (p - 1)) <= IZR a / IZR b < IZR (10 ^ p)).
  { rewrite Q. rewrite <- !(pw_IZR 10) by lia. change (pw 10) with pow10.
    assert (E1 : pow10 (p - 1) = pow10 x0 * pow10 (p - 1 - x0)) by (rewrite <- PA; f_equal; lia).
    assert (E2 : pow10 p = pow10 (x0 + 1) * pow10 (p - 1 - x0)) by (rewrite <- PA; f_equal; lia).
    rewrite E1, E2. pose proof (PP (p - 1 - x0)%Z). split; [apply Rmult_le_compat_r; lra|now apply Rmult_lt_compat_r]. }
  pose proof (rhe_R a b B) as H. set (r := rhe a b) in *. apply half_abs in H.
  assert (R2 : (10 ^ (p - 1) <= r <= 10 ^ p)%Z).
  { split.
    - apply Z.lt_succ_r. unfold Z.succ. apply lt_IZR. rewrite plus_IZR. lra.
    - apply Z.lt_succ_r. unfold Z.succ. apply lt_IZR. rewrite plus_IZR. lra. }
  assert (R3 : Rabs (IZR r * pow10 (x0 - (p - 1)) - v) <= / 2 * pow10 (x0 - (p - 1))).
  { replace v with (IZR a / IZR b * pow10 (x0 - (p - 1))).
    - replace (IZR r * pow10 (x0 - (p - 1)) - IZR a / IZR b * pow10 (x0 - (p - 1))) with ((IZR r - IZR a / IZR b) * pow10 (x0 - (p - 1))) by ring.
      rewrite Rabs_mult, (Rabs_right (pow10 _)) by (apply Rle_ge, Rlt_le, PP). apply Rmult_le_compat_r; [apply Rlt_le, PP|]. now apply rhe_R.
    - rewrite Q, Rmult_assoc, <- PA. replace (p - 1 - x0 + (x0 - (p - 1)))%Z with 0%Z by lia. unfold pow10; cbn [powerRZ]. ring. }
  destruct (Z.eqb_spec r (10 ^ p)) as [C|C]; injection E as <- <-.
  - split.
    + split; [lia|]. apply Z.pow_lt_mono_r; lia.
    + exists x0. split; auto. rewrite C in R3. replace (IZR (10 ^ (p - 1)) * pow10 (x0 + 1 - (p - 1))) with (IZR (10 ^ p) * pow10 (x0 - (p - 1))); auto.
      rewrite <- !(pw_IZR 10) by lia. change (pw 10) with pow10. rewrite <- !PA. f_equal. lia.
  - split; [lia|]. exists x0. split; auto.
Qed.
