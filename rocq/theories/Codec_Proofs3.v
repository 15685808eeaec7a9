(** Proofs about the text format of doubles: reading back. *)
From Coq Require Import Ascii String ZArith Bool Arith Lia Reals Lra Floats SpecFloat List.
From Verif Require Import Outcome Num Point_Model Path_Model Text_Model Text_Spec Text_Proofs Codec_Model Codec_Spec Codec_Proofs Codec_Proofs2.
Import ListNotations.
Local Open Scope R_scope.

Notation valid := (valid_binary 53 1024).

Lemma p2_pos k : 0 < pow2 k. Proof. apply (pw_pos 2); lia. Qed.
Lemma p2_add j k : pow2 (j + k) = pow2 j * pow2 k. Proof. apply (pw_add 2); lia. Qed.
Lemma p2_le j k : (j <= k)%Z -> pow2 j <= pow2 k. Proof. apply (pw_le 2); lia. Qed.
Lemma p2_lt_inv j k : pow2 j < pow2 k -> (j < k)%Z. Proof. apply (pw_lt_inv 2); lia. Qed.
Lemma p2_IZR k : (0 <= k)%Z -> pow2 k = IZR (2 ^ k). Proof. apply (pw_IZR 2); lia. Qed.
Lemma p2_1 : pow2 1 = 2. Proof. unfold pow2; cbn [powerRZ]. change (Pos.to_nat 1) with 1%nat. apply pow_1. Qed.
Lemma p10_pos k : 0 < pow10 k. Proof. apply (pw_pos 10); lia. Qed.
Lemma p10_add j k : pow10 (j + k) = pow10 j * pow10 k. Proof. apply (pw_add 10); lia. Qed.
Lemma p10_le j k : (j <= k)%Z -> pow10 j <= pow10 k. Proof. apply (pw_le 10); lia. Qed.
Lemma p10_IZR k : (0 <= k)%Z -> pow10 k = IZR (10 ^ k). Proof. apply (pw_IZR 10); lia. Qed.

Lemma digits2_ok m : (2 ^ (Zpos (digits2_pos m) - 1) <= Zpos m < 2 ^ Zpos (digits2_pos m))%Z.
Proof.
  induction m as [m IH|m IH|]; cbn [digits2_pos]; [| |easy]; rewrite Pos2Z.inj_succ; unfold Z.succ;
    set (d := Zpos (digits2_pos m)) in *; assert (1 <= d)%Z by (unfold d; lia);
    replace (d + 1 - 1)%Z with (d - 1 + 1)%Z by lia; rewrite !(Z.pow_add_r 2 _ 1) by lia; change (2 ^ 1)%Z with 2%Z; lia.
Qed.

(** The finite doubles. *)
Lemma valid_iff s m e : valid (S754_finite s m e) = true <->
  (-1074 <= e <= 971)%Z /\ (Zpos m < 2 ^ 53)%Z /\ (e = -1074 \/ 2 ^ 52 <= Zpos m)%Z.
Proof.
  cbn [valid_binary]. unfold bounded, canonical_mantissa. rewrite andb_true_iff. rewrite Z.leb_le, <- Zeq_is_eq_bool.
  unfold fexp, emin. pose proof (digits2_ok m) as [A B]. set (d := Zpos (digits2_pos m)) in *.
  assert (P1 : forall a b, (0 <= a)%Z -> (0 <= b)%Z -> (2 ^ a < 2 ^ b)%Z -> (a < b)%Z) by (intros; apply (Z.pow_lt_mono_r_iff 2); lia).
  assert (P2 : forall a b, (0 <= a <= b)%Z -> (2 ^ a <= 2 ^ b)%Z) by (intros; apply Z.pow_le_mono_r; lia).
  assert (D : (1 <= d)%Z) by (unfold d; lia).
  change (2 ^ 53)%Z with (2 ^ (52 + 1))%Z. split.
  - intros [E L]. split; [lia|]. split.
    + assert (d <= 53)%Z by lia. pose proof (P2 d 53%Z ltac:(lia)). change (52 + 1)%Z with 53%Z. lia.
    + destruct (Z.eq_dec e (-1074)) as [->|N]; [now left|right]. assert (d = 53)%Z by lia. rewrite H in A. change (53 - 1)%Z with 52%Z in A. lia.
  - intros [L [M C]]. assert (d <= 53)%Z by (pose proof (P1 (d - 1)%Z 53%Z ltac:(lia) ltac:(lia)); change (52 + 1)%Z with 53%Z in M; lia).
    split; [|lia]. destruct C as [->|C]; [lia|]. assert (52 < d)%Z by (apply P1; lia). lia.
Qed.

Lemma abs_lt (x r : R) : Rabs x < r -> - r < x < r.
Proof. intros H. apply Rabs_def2 in H. lra. Qed.
Lemma abs_le (x r : R) : Rabs x <= r -> - r <= x <= r.
Proof. intros H. pose proof (Rle_abs x). pose proof (Rle_abs (- x)) as K. rewrite Rabs_Ropp in K. lra. Qed.

(** A number closer to a double than half a unit reads as that double. *)
Lemma round_near s m e num den : valid (S754_finite s m e) = true -> (0 < num)%Z -> (0 < den)%Z ->
  Rabs (IZR num / IZR den - IZR (Zpos m) * pow2 e) < / 2 * pow2 e ->
  (Zpos m = (2 ^ 52)%Z -> Rabs (IZR num / IZR den - IZR (Zpos m) * pow2 e) < / 4 * pow2 e) ->
  round_sf s num den = Some (S754_finite s m e).
Proof.
  intros V N D H H4. apply valid_iff in V. destruct V as [LE [LM C]]. unfold round_sf.
  set (w := IZR num / IZR den) in *. set (E := log2q num den). pose proof (log2q_ok num den N D) as LG. fold w E in LG.
  pose proof (p2_pos e) as Pe. apply abs_lt in H.
  assert (LMr : IZR (Zpos m) <= IZR (2 ^ 53) - 1) by (rewrite <- minus_IZR; apply IZR_le; lia).
  assert (B53 : pow2 (e + 53) = IZR (2 ^ 53) * pow2 e) by (rewrite p2_add, (p2_IZR 53) by lia; ring).
  assert (B52 : pow2 (e + 52) = IZR (2 ^ 52) * pow2 e) by (rewrite p2_add, (p2_IZR 52) by lia; ring).
  assert (U : w < pow2 (e + 53)) by (rewrite B53; nra).
  assert (EU : (E <= e + 52)%Z) by (assert (E < e + 53)%Z by (apply p2_lt_inv; lra); lia).
  (* the case of the same exponent *)
  assert (SAME : Z.max (E - 52) (-1074) = e ->
    (let e := Z.max (E - 52) (-1074) in let (a, b) := scale num den 2 (- e) in let q := rhe a b in
     if (q =? 0)%Z then Some (S754_zero s)
     else let (m, e) := if (q =? 2 ^ 53)%Z then (2 ^ 52, e + 1)%Z else (q, e) in
       if (971 <? e)%Z then None else Some (S754_finite s (Z.to_pos m) e)) = Some (S754_finite s m e)).
  { intros ->. cbv zeta. destruct (scale num den 2 (- e)) as [a b] eqn:SC.
    destruct (scale_ok 2 ltac:(lia) _ _ _ _ _ N D SC) as [A [B Q]]. fold w in Q. change (pw 2) with pow2 in Q.
    assert (R : rhe a b = Zpos m).
    { apply rhe_near; auto. rewrite Q. pose proof (p2_pos (- e)).
      assert (PO : pow2 (- e) * pow2 e = 1) by (apply (pw_opp 2); lia).
      replace (IZR (Zpos m) - w * pow2 (- e)) with (- ((w - IZR (Zpos m) * pow2 e) * pow2 (- e))) by (ring_simplify; rewrite Rmult_assoc, (Rmult_comm (pow2 e)), PO; ring).
      rewrite Rabs_Ropp, Rabs_mult, (Rabs_right (pow2 (- e))) by lra. apply Rmult_lt_reg_r with (pow2 e); auto.
      rewrite Rmult_assoc, PO, Rmult_1_r. apply Rabs_def1; lra. }
    rewrite R. rewrite (proj2 (Z.eqb_neq (Zpos m) 0)) by lia. rewrite (proj2 (Z.eqb_neq (Zpos m) (2 ^ 53))) by lia.
    rewrite (proj2 (Z.ltb_ge 971 e)) by lia. reflexivity. }
  destruct C as [->|C]; [apply SAME; lia|].
  destruct (Rle_or_lt (pow2 (e + 52)) w) as [G|G].
  - apply SAME. assert (e + 52 < E + 1)%Z by (apply p2_lt_inv; lra). lia.
  - (* the power of two, reached from below *)
    assert (M52 : Zpos m = (2 ^ 52)%Z).
    { assert (Zpos m < 2 ^ 52 + 1)%Z; [|lia]. apply lt_IZR. rewrite plus_IZR. rewrite B52 in G. apply Rmult_lt_reg_r with (pow2 e); auto. nra. }
    specialize (H4 M52). rewrite M52 in *.
    destruct (Z.eq_dec e (-1074)) as [->|NE]; [rewrite <- M52 in *; apply SAME; lia|].
    assert (B51 : pow2 (e + 51) * 2 = pow2 (e + 52)).
    { replace (e + 52)%Z with (e + 51 + 1)%Z by lia. rewrite (p2_add (e + 51)). rewrite p2_1. ring. }
    assert (BIG : IZR (2 ^ 52) >= 1) by (apply Rle_ge; apply IZR_le; lia).
    apply abs_lt in H4.
    assert (E1 : (e + 51 < E + 1)%Z) by (apply p2_lt_inv; apply Rle_lt_trans with w; [|lra]; nra).
    assert (E2 : (E < e + 52)%Z) by (apply p2_lt_inv; lra).
    replace (Z.max (E - 52) (-1074)) with (e - 1)%Z by lia.
    destruct (scale num den 2 (- (e - 1))) as [a b] eqn:SC.
    destruct (scale_ok 2 ltac:(lia) _ _ _ _ _ N D SC) as [A [B Q]]. fold w in Q. change (pw 2) with pow2 in Q.
    assert (P1 : pow2 (e - 1) * 2 = pow2 e).
    { replace e with (e - 1 + 1)%Z at 2 by lia. rewrite (p2_add (e - 1)). rewrite p2_1. ring. }
    assert (R : rhe a b = (2 ^ 53)%Z).
    { apply rhe_near; auto. rewrite Q. pose proof (p2_pos (e - 1)) as P3. pose proof (p2_pos (- (e - 1))) as P4.
      assert (PO : pow2 (- (e - 1)) * pow2 (e - 1) = 1) by (apply (pw_opp 2); lia).
      assert (T53 : IZR (2 ^ 53) = 2 * IZR (2 ^ 52)) by (change (2 ^ 53)%Z with (2 * 2 ^ 52)%Z; apply mult_IZR).
      apply Rmult_lt_reg_r with (pow2 (e - 1)); auto. rewrite <- (Rabs_right (pow2 (e - 1))) at 1 by lra. rewrite <- Rabs_mult.
      rewrite Rmult_minus_distr_r, Rmult_assoc, PO, Rmult_1_r. apply Rabs_def1; nra. }
    rewrite R. change (2 ^ 53 =? 0)%Z with false. change (2 ^ 53 =? 2 ^ 53)%Z with true. cbn iota.
    replace (e - 1 + 1)%Z with e by lia. rewrite (proj2 (Z.ltb_ge 971 e)) by lia.
    do 2 f_equal. apply Pos2Z.inj. rewrite Z2Pos.id by lia. now symmetry.
Qed.

(** Every number that is not too large reads as a double within half a unit. *)
Lemma round_close s num den : (0 < num)%Z -> (0 < den)%Z -> IZR num / IZR den <= 3 / 2 * pow2 1023 ->
  exists v x, round_sf s num den = Some v /\ valid v = true /\ sf_value v ((if s then -1 else 1) * x) /\ 0 <= x /\
    Rabs (x - IZR num / IZR den) <= Rmax (pow2 (-53) * (IZR num / IZR den)) (pow2 (-1075)).
Proof.
  intros N D O. unfold round_sf. set (w := IZR num / IZR den) in *. set (E := log2q num den).
  pose proof (log2q_ok num den N D) as LG. fold w E in LG. set (e := Z.max (E - 52) (-1074)).
  destruct (scale num den 2 (- e)) as [a b] eqn:SC.
  destruct (scale_ok 2 ltac:(lia) _ _ _ _ _ N D SC) as [A [B Q]]. fold w in Q. change (pw 2) with pow2 in Q.
  pose proof (rhe_R a b B) as H. set (q := rhe a b) in *. rewrite Q in H.
  pose proof (p2_pos e) as Pe. pose proof (p2_pos (- e)) as Pe'.
  assert (PO : pow2 (- e) * pow2 e = 1) by (apply (pw_opp 2); lia).
  assert (HW : Rabs (IZR q * pow2 e - w) <= / 2 * pow2 e).
  { replace (IZR q * pow2 e - w) with ((IZR q - w * pow2 (- e)) * pow2 e) by (ring_simplify; rewrite Rmult_assoc, PO; ring).
    rewrite Rabs_mult, (Rabs_right (pow2 e)) by lra. apply Rmult_le_compat_r; lra. }
  assert (W0 : 0 < w) by (pose proof (p2_pos E); lra).
  assert (ERR : Rabs (IZR q * pow2 e - w) <= Rmax (pow2 (-53) * w) (pow2 (-1075))).
  { apply Rle_trans with (/ 2 * pow2 e); auto.
    assert (H2 : / 2 = pow2 (-1)) by (unfold pow2; cbn [powerRZ]; change (Pos.to_nat 1) with 1%nat; now rewrite pow_1).
    rewrite H2, <- p2_add. unfold e. destruct (Z.max_spec (E - 52) (-1074)) as [[_ ->]|[_ ->]].
    - apply Rmax_r.
    - apply Rle_trans with (pow2 (-53) * w); [|apply Rmax_l]. replace (-1 + (E - 52))%Z with (-53 + E)%Z by lia. rewrite p2_add.
      apply Rmult_le_compat_l; [apply Rlt_le, p2_pos|lra]. }
  assert (WU : w * pow2 (- e) < IZR (2 ^ 53)).
  { rewrite <- p2_IZR by lia. apply Rmult_lt_reg_r with (pow2 e); auto. rewrite Rmult_assoc, PO, Rmult_1_r, <- p2_add.
    apply Rlt_le_trans with (pow2 (E + 1)); [lra|]. apply p2_le. unfold e. lia. }
  assert (WP : 0 <= w * pow2 (- e)) by nra.
  apply half_abs in H.
  assert (QB : (0 <= q <= 2 ^ 53)%Z).
  { split; apply Z.lt_succ_r; unfold Z.succ; apply lt_IZR; rewrite plus_IZR; lra. }
  assert (E1 : (E <= 1023)%Z).
  { assert (E < 1024)%Z; [|lia]. apply p2_lt_inv. change 1024%Z with (1023 + 1)%Z. rewrite p2_add. rewrite p2_1.
    pose proof (p2_pos 1023). lra. }
  destruct (Z.eqb_spec q 0) as [Q0|Q0].
  { exists (S754_zero s), 0. split; [reflexivity|]. split; [reflexivity|]. split; [cbn; ring|]. split; [lra|]. rewrite Q0, Rmult_0_l in ERR. exact ERR. }
  destruct (Z.eqb_spec q (2 ^ 53)) as [Q1|Q1].
  - assert (EL : (e + 1 <= 971)%Z).
    { destruct (Z_lt_le_dec 971 (e + 1)) as [K|K]; auto. assert (e = 971)%Z by (unfold e in *; lia).
      exfalso. rewrite H0 in *. apply abs_le in HW. rewrite Q1 in HW. change 1023%Z with (52 + 971)%Z in O. rewrite p2_add, (p2_IZR 52) in O by lia.
      assert (T53 : IZR (2 ^ 53) = 2 * IZR (2 ^ 52)) by (change (2 ^ 53)%Z with (2 * 2 ^ 52)%Z; apply mult_IZR).
      assert (BIG : 2 <= IZR (2 ^ 52)) by (apply IZR_le; lia).
      rewrite T53 in HW. nra. }
    rewrite (proj2 (Z.ltb_ge 971 (e + 1))) by lia.
    exists (S754_finite s (Z.to_pos (2 ^ 52)) (e + 1)), (IZR q * pow2 e). split; [reflexivity|]. split.
    + apply valid_iff. rewrite Z2Pos.id by lia. unfold e in *. repeat split; try lia.
    + split.
      * cbn [sf_value]. rewrite Z2Pos.id by lia. rewrite p2_add. rewrite p2_1.
        rewrite Q1. change (2 ^ 53)%Z with (2 * 2 ^ 52)%Z. rewrite mult_IZR. ring.
      * split; auto. apply Rmult_le_pos; [apply IZR_le; lia|lra].
  - rewrite (proj2 (Z.ltb_ge 971 e)) by (unfold e; lia).
    exists (S754_finite s (Z.to_pos q) e), (IZR q * pow2 e). split; [reflexivity|]. split.
    + apply valid_iff. rewrite Z2Pos.id by lia. split; [unfold e; lia|]. split; [lia|].
      destruct (Z_le_gt_dec (E - 52) (-1074)) as [K|K]; [left; unfold e; lia|right].
      assert (EE : e = (E - 52)%Z) by (unfold e; lia).
      assert (2 ^ 52 < q + 1)%Z; [|lia]. apply lt_IZR. rewrite plus_IZR.
      assert (IZR (2 ^ 52) <= w * pow2 (- e)); [|lra].
      rewrite <- p2_IZR by lia. apply Rmult_le_reg_r with (pow2 e); auto. rewrite Rmult_assoc, PO, Rmult_1_r, <- p2_add.
      replace (52 + e)%Z with E by lia. lra.
    + split.
      * cbn [sf_value]. rewrite Z2Pos.id by lia. ring.
      * split; auto. apply Rmult_le_pos; [apply IZR_le; lia|lra].
Qed.

(** *** Printing and reading a double *)
Lemma frac_ok m e num den : sf_frac m e = (num, den) -> (0 < num)%Z /\ (0 < den)%Z /\ IZR num / IZR den = IZR (Zpos m) * pow2 e.
Proof.
  unfold sf_frac. intros SC. destruct (scale_ok 2 ltac:(lia) _ _ _ _ _ (Pos2Z.is_pos m) Z.lt_0_1 SC) as [A [B Q]].
  split; auto. split; auto. rewrite Q. change (pw 2) with pow2. unfold Rdiv. rewrite Rinv_1. ring.
Qed.

Lemma g_finite P s m e : exists num den, (0 < num)%Z /\ (0 < den)%Z /\ IZR num / IZR den = IZR (Zpos m) * pow2 e /\
  g_text P (S754_finite s m e) = sign_text s ++ g_positive (Nat.max 1 P) num den.
Proof.
  destruct (sf_frac m e) as [num den] eqn:E. destruct (frac_ok _ _ _ _ E) as [A [B C]]. exists num, den. repeat split; auto.
  unfold g_text. rewrite E. reflexivity.
Qed.

Lemma read_zero s rest : stops rest -> read_double ((sign_text s ++ txt "0") ++ rest) = Some (S754_zero s, rest).
Proof.
  intros R. unfold read_double. rewrite <- app_assoc.
  rewrite (span_start s (txt "0") rest); [|discriminate|intros c [<-|[]]; reflexivity].
  rewrite span_digits_ok; [|intros c [<-|[]]; reflexivity|intros c t E; now apply (R c t)].
  assert (F : span_frac rest = ([], rest)) by (destruct rest as [|c t]; [reflexivity|]; unfold span_frac; destruct (R c t eq_refl) as [_ [-> _]]; reflexivity).
  rewrite F, app_nil_r. cbn [list_ascii_of_string]. rewrite span_exp_none by exact R. reflexivity.
Qed.

(** With 17 digits every finite double comes back. *)
Lemma read_exact P v rest : (17 <= P)%nat -> valid v = true -> (exists x, sf_value v x) -> stops rest ->
  read_double (g_text P v ++ rest) = Some (v, rest).
Proof.
  intros HP V [x0 X0] R. destruct v as [s|s| |s m e]; cbn [sf_value] in X0; [now apply read_zero|easy|easy|].
  destruct (g_finite P s m e) as [num [den [N [D [Q T]]]]]. rewrite T, <- app_assoc. replace (Nat.max 1 P) with P by lia.
  destruct (sig_digits P num den) as [d x] eqn:SD.
  destruct (sig_digits_ok P num den d x ltac:(lia) N D SD) as [_ [xx [LX ERR]]].
  destruct (read_positive P s num den d x rest ltac:(lia) N D SD R) as [n [k [N1 [N2 [W RD]]]]]. rewrite RD. unfold converted.
  rewrite Q in *.
  assert (SMALL : / 2 * pow10 (xx - (Z.of_nat P - 1)) * IZR (10 ^ 16) <= / 2 * (IZR (Zpos m) * pow2 e)).
  { rewrite <- p10_IZR, Rmult_assoc, <- p10_add by lia. apply Rmult_le_compat_l; [lra|]. apply Rle_trans with (pow10 xx); [|lra]. apply p10_le. lia. }
  pose proof V as V'. apply valid_iff in V'. destruct V' as [_ [LM _]]. apply IZR_lt in LM. pose proof (p2_pos e) as Pe.
  assert (B16 : IZR (2 ^ 53) < IZR (10 ^ 16)) by (apply IZR_lt; reflexivity).
  rewrite (round_near s m e n k); auto.
  - rewrite W. apply Rle_lt_trans with (1 := ERR). apply Rmult_lt_reg_r with (IZR (10 ^ 16)); [apply IZR_lt; reflexivity|].
    eapply Rle_lt_trans; [exact SMALL|]. nra.
  - intros M. rewrite W. apply Rle_lt_trans with (1 := ERR). apply Rmult_lt_reg_r with (IZR (10 ^ 16)); [apply IZR_lt; reflexivity|].
    eapply Rle_lt_trans; [exact SMALL|]. rewrite M. assert (T53 : IZR (2 ^ 53) = 2 * IZR (2 ^ 52)) by (change (2 ^ 53)%Z with (2 * 2 ^ 52)%Z; apply mult_IZR). nra.
Qed.

(** With any number of digits a double comes back rounded. *)
Lemma read_rounded P v x rest : valid v = true -> sf_value v x -> Rabs x <= pow2 1023 -> stops rest ->
  exists v' y, read_double (g_text P v ++ rest) = Some (v', rest) /\ valid v' = true /\ sf_value v' y /\ rounded (Nat.max 1 P) x y.
Proof.
  intros V X BX R. destruct v as [s|s| |s m e]; cbn [sf_value] in X; [|easy|easy|].
  { subst x. exists (S754_zero s), 0. split; [now apply read_zero|]. split; [reflexivity|]. split; [reflexivity|]. exists 0.
    rewrite Rminus_0_r, Rabs_R0, !Rmult_0_r. split; [lra|]. apply Rle_trans with (pow2 (-1075)); [apply Rlt_le, p2_pos|apply Rmax_r]. }
  destruct (g_finite P s m e) as [num [den [N [D [Q T]]]]]. rewrite T, <- app_assoc. set (P' := Nat.max 1 P) in *.
  assert (HP : (1 <= P')%nat) by lia.
  destruct (sig_digits P' num den) as [d xe] eqn:SD.
  destruct (sig_digits_ok P' num den d xe HP N D SD) as [[D1 _] [xx [LX ERR]]].
  destruct (read_positive P' s num den d xe rest HP N D SD R) as [n [k [N1 [N2 [W RD]]]]]. rewrite RD. unfold converted.
  set (a := IZR (Zpos m) * pow2 e) in *. rewrite Q in *.
  assert (A0 : 0 < a) by (pose proof (p10_pos xx); lra).
  assert (XA : x = (if s then -1 else 1) * a) by (unfold a; rewrite X; ring).
  assert (AX : Rabs x = a) by (rewrite XA; destruct s; [replace (-1 * a) with (- a) by ring; rewrite Rabs_Ropp, Rabs_right; lra|rewrite Rmult_1_l, Rabs_right; lra]).
  rewrite AX in BX. set (w := IZR n / IZR k) in *. rewrite <- W in ERR.
  assert (E1 : Rabs (w - a) <= / 2 * pow10 (1 - Z.of_nat P') * a).
  { eapply Rle_trans; [exact ERR|]. rewrite Rmult_assoc. apply Rmult_le_compat_l; [lra|]. replace (xx - (Z.of_nat P' - 1))%Z with (1 - Z.of_nat P' + xx)%Z by lia.
    rewrite p10_add. apply Rmult_le_compat_l; [apply Rlt_le, p10_pos|lra]. }
  assert (P1 : pow10 (1 - Z.of_nat P') <= 1) by (change 1 with (pow10 0); apply p10_le; lia).
  assert (W0 : 0 <= w).
  { rewrite W. apply Rmult_le_pos; [apply IZR_le|apply Rlt_le, p10_pos]. assert (0 < 10 ^ (Z.of_nat P' - 1))%Z by (apply Z.pow_pos_nonneg; lia). lia. }
  assert (WB : w <= 3 / 2 * pow2 1023).
  { apply abs_le in E1. pose proof (p10_pos (1 - Z.of_nat P')). assert (/ 2 * pow10 (1 - Z.of_nat P') * a <= / 2 * a) by nra. lra. }
  destruct (round_close s n k N1 N2 WB) as [v' [y [RS [V' [SV [Y0 ER]]]]]]. fold w in ER. rewrite RS.
  exists v', ((if s then -1 else 1) * y). split; [reflexivity|]. split; [exact V'|]. split; [exact SV|].
  exists ((if s then -1 else 1) * w). rewrite XA. destruct s.
  - replace (-1 * w - -1 * a) with (- (w - a)) by ring. replace (-1 * y - -1 * w) with (- (y - w)) by ring.
    replace (-1 * a) with (- a) by ring. replace (-1 * w) with (- w) by ring. rewrite !Rabs_Ropp, (Rabs_right a), (Rabs_right w) by lra. now split.
  - rewrite !Rmult_1_l, (Rabs_right a), (Rabs_right w) by lra. now split.
Qed.

(** Small integers come back with any precision that holds them. *)
Lemma sig_digits_int P num den n d x : (1 <= P)%nat -> (0 < num)%Z -> (0 < den)%Z -> IZR num / IZR den = IZR n ->
  (n < 10 ^ Z.of_nat P)%Z -> sig_digits P num den = (d, x) -> IZR d * pow10 (x - (Z.of_nat P - 1)) = IZR n.
Proof.
  intros HP N D E B SD. unfold sig_digits in SD. set (p := Z.of_nat P) in *. assert (Hp : (1 <= p)%Z) by lia.
  set (x0 := log10q num den) in *. pose proof (log10q_ok num den N D) as LQ. fold x0 in LQ. rewrite E in LQ.
  assert (X0 : (x0 <= p - 1)%Z).
  { assert (x0 < p)%Z; [|lia]. apply (pw_lt_inv 10); [lia|]. change (pw 10) with pow10. rewrite (p10_IZR p) by lia.
    apply IZR_lt in B. lra. }
  destruct (scale num den 10 (p - 1 - x0)) as [a b] eqn:SC.
  destruct (scale_ok 10 ltac:(lia) _ _ _ _ _ N D SC) as [A [Bb Q]]. rewrite E in Q. change (pw 10) with pow10 in Q.
  rewrite p10_IZR, <- mult_IZR in Q by lia.
  assert (R : rhe a b = (n * 10 ^ (p - 1 - x0))%Z).
  { apply rhe_near; auto. rewrite Q. unfold Rminus. rewrite Rplus_opp_r, Rabs_R0. lra. }
  assert (NC : rhe a b <> (10 ^ p)%Z).
  { assert (rhe a b < 10 ^ p)%Z; [|lia]. rewrite R. apply lt_IZR. rewrite mult_IZR, <- !p10_IZR by lia.
    replace p with (x0 + 1 + (p - 1 - x0))%Z at 2 by lia. rewrite (p10_add (x0 + 1)). apply Rmult_lt_compat_r; [apply p10_pos|lra]. }
  rewrite (proj2 (Z.eqb_neq _ _) NC) in SD. injection SD as <- <-. rewrite R, mult_IZR, <- p10_IZR by lia.
  rewrite Rmult_assoc, <- p10_add. replace (p - 1 - x0 + (x0 - (p - 1)))%Z with 0%Z by lia. unfold pow10; cbn [powerRZ]. ring.
Qed.

Lemma sf_int s n : (1 <= n < 2 ^ 53)%Z -> exists m k, (0 <= k)%Z /\ (Zpos m = n * 2 ^ k)%Z /\ valid (S754_finite s m (- k)) = true /\
  forall num den, (0 < num)%Z -> (0 < den)%Z -> IZR num / IZR den = IZR n -> round_sf s num den = Some (S754_finite s m (- k)).
Proof.
  intros H. destruct (log2_ok n ltac:(lia)) as [L0 [L1 L2]]. set (l := Z.log2 n) in *.
  assert (L52 : (l <= 52)%Z).
  { assert (l < 53)%Z; [|lia]. apply (Z.pow_lt_mono_r_iff 2); lia. }
  assert (KP : (0 < 2 ^ (52 - l))%Z) by (apply Z.pow_pos_nonneg; lia).
  assert (M : Zpos (Z.to_pos (n * 2 ^ (52 - l))) = (n * 2 ^ (52 - l))%Z) by (apply Z2Pos.id; nia).
  exists (Z.to_pos (n * 2 ^ (52 - l))), (52 - l)%Z. split; [lia|]. split; [exact M|].
  assert (V : valid (S754_finite s (Z.to_pos (n * 2 ^ (52 - l))) (- (52 - l))) = true).
  { apply valid_iff. rewrite M. split; [lia|].
    replace (2 ^ 52)%Z with (2 ^ l * 2 ^ (52 - l))%Z by (rewrite <- Z.pow_add_r by lia; f_equal; lia).
    replace (2 ^ 53)%Z with (2 ^ (l + 1) * 2 ^ (52 - l))%Z by (rewrite <- Z.pow_add_r by lia; f_equal; lia).
    split; [nia|right; nia]. }
  split; [exact V|]. intros num den N D E.
  assert (Z0 : IZR num / IZR den - IZR (Zpos (Z.to_pos (n * 2 ^ (52 - l)))) * pow2 (- (52 - l)) = 0).
  { rewrite M, E, mult_IZR, <- p2_IZR by lia. assert (PO : pow2 (- (52 - l)) * pow2 (52 - l) = 1) by (apply (pw_opp 2); lia).
    rewrite Rmult_assoc, (Rmult_comm (pow2 (52 - l))), PO. ring. }
  pose proof (p2_pos (- (52 - l))). apply round_near; auto; rewrite Z0, Rabs_R0; intros; lra.
Qed.

Lemma read_int z rest : (Z.abs z < 1000000)%Z -> stops rest ->
  exists v, read_double (g_text 6 (sf_of_int z) ++ rest) = Some (v, rest) /\ enum_of_sf v = Ok z.
Proof.
  intros H R. unfold sf_of_int. destruct (Z.eqb_spec z 0) as [->|NZ].
  { exists (S754_zero false). split; [now apply (read_zero false)|reflexivity]. }
  set (s := (z <? 0)%Z). destruct (sf_int s (Z.abs z)) as [m [k [K [M [V RS]]]]]; [lia|].
  rewrite (RS (Z.abs z) 1%Z) by (try lia; unfold Rdiv; rewrite Rinv_1; ring).
  exists (S754_finite s m (- k)). split.
  - destruct (g_finite 6 s m (- k)) as [num [den [N [D [Q T]]]]]. rewrite T, <- app_assoc. cbn [Nat.max].
    assert (PO : pow2 (- k) * pow2 k = 1) by (apply (pw_opp 2); lia).
    assert (Q' : IZR num / IZR den = IZR (Z.abs z)).
    { rewrite Q, M, mult_IZR, <- p2_IZR by lia. rewrite Rmult_assoc, (Rmult_comm (pow2 k)), PO. ring. }
    destruct (sig_digits 6 num den) as [d x] eqn:SD.
    pose proof (sig_digits_int 6 num den (Z.abs z) d x ltac:(lia) N D Q' ltac:(cbn; lia) SD) as E.
    destruct (read_positive 6 s num den d x rest ltac:(lia) N D SD R) as [n [kk [N1 [N2 [W RD]]]]]. rewrite RD. unfold converted.
    rewrite E in W. now rewrite (RS n kk N1 N2 W).
  - cbn [enum_of_sf]. unfold sf_frac, scale. rewrite M. destruct (Z.leb_spec 0 (- k)) as [L|L].
    + replace k with 0%Z by lia. cbn [Z.opp]. rewrite Z.div_1_r. change (2 ^ 0)%Z with 1%Z.
      replace (if s then (- (Z.abs z * 1 * 1))%Z else (Z.abs z * 1 * 1)%Z) with z by (unfold s; destruct (Z.ltb_spec z 0); lia).
      replace ((- 2 ^ 31 <=? z)%Z && (z <? 2 ^ 31)%Z)%bool with true; [reflexivity|]. symmetry. apply andb_true_iff. split; [apply Z.leb_le|apply Z.ltb_lt]; lia.
    + rewrite Z.opp_involutive. replace (1 * 2 ^ k)%Z with (2 ^ k)%Z by lia. rewrite Z.div_mul by (apply Z.pow_nonzero; lia).
      replace (if s then (- Z.abs z)%Z else Z.abs z) with z by (unfold s; destruct (Z.ltb_spec z 0); lia).
      replace ((- 2 ^ 31 <=? z)%Z && (z <? 2 ^ 31)%Z)%bool with true; [reflexivity|]. symmetry. apply andb_true_iff. split; [apply Z.leb_le|apply Z.ltb_lt]; lia.
Qed.

(** Infinities and NaN are not read. *)
Lemma read_nonfinite P v rest : (forall x, ~ sf_value v x) -> read_double (g_text P v ++ rest) = None.
Proof.
  intros H. destruct v as [s|s| |s m e].
  - now elim (H 0).
  - destruct s; reflexivity.
  - reflexivity.
  - cbn [sf_value] in H. now elim (H _ eq_refl).
Qed.
