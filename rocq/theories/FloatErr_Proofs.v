(** How far sums and products of doubles are from the exact ones, and that comparing doubles
    compares their values; from the specification of the operations in the standard
    library. *)
From Coq Require Import ZArith Bool Lia Reals Lra Floats SpecFloat FloatAxioms Zpower List.
From Verif Require Import Codec_Spec Codec_Proofs Codec_Proofs3.
Local Open Scope R_scope.

(** [m] with the bits [r] and [s] stands for [M] shifted by [p]. *)
Definition shifted (M p : Z) (x : shr_record) : Prop := exists rho,
  (M = shr_m x * 2 ^ p + rho)%Z /\ (0 <= rho < 2 ^ p)%Z /\ (0 <= shr_m x)%Z /\
  match shr_r x, shr_s x with
  | false, false => (rho = 0)%Z
  | false, true => (0 < 2 * rho < 2 ^ p)%Z
  | true, false => (2 * rho = 2 ^ p)%Z
  | true, true => (2 ^ p < 2 * rho)%Z
  end.

Lemma shifted_1 M p x : (0 <= p)%Z -> shifted M p x -> shifted M (p + 1) (shr_1 x).
Proof.
  intros Hp (rho & E & B & Pm & C). assert (P0 : (0 < 2 ^ p)%Z) by (apply Z.pow_pos_nonneg; lia).
  assert (E2 : (2 ^ (p + 1) = 2 * 2 ^ p)%Z) by (rewrite Z.pow_add_r by lia; lia).
  unfold shifted. rewrite E2. set (q := (2 ^ p)%Z) in *.
  destruct x as [m r s]. cbn [shr_m shr_r shr_s] in *.
  destruct m as [|[m|m|]|m]; [| | | |lia]; cbn [shr_1 shr_m shr_r shr_s].
  - exists rho. destruct r, s; cbn [orb]; repeat split; try lia.
  - exists (rho + q)%Z. destruct r, s; cbn [orb]; repeat split; try lia.
  - exists rho. destruct r, s; cbn [orb]; repeat split; try lia.
  - exists (rho + q)%Z. destruct r, s; cbn [orb]; repeat split; try lia.
Qed.

Lemma shifted_iter M n : forall p x, (0 <= p)%Z -> shifted M p x -> shifted M (p + Zpos n) (iter_pos shr_1 n x).
Proof.
  induction n as [n IH|n IH|]; intros p x Hp H; cbn [iter_pos].
  - replace (p + Z.pos n~1)%Z with (p + 1 + Z.pos n + Z.pos n)%Z by lia. apply IH; [lia|]. apply IH; [lia|]. apply shifted_1; auto.
  - replace (p + Z.pos n~0)%Z with (p + Z.pos n + Z.pos n)%Z by lia. apply IH; [lia|]. apply IH; auto.
  - apply shifted_1; auto.
Qed.

Lemma shifted_round M p x : (0 <= p)%Z -> shifted M p x ->
  let N := round_nearest_even (shr_m x) (loc_of_shr_record x) in
  (0 <= N)%Z /\ (2 * Z.abs (N * 2 ^ p - M) <= 2 ^ p)%Z /\ (N <= M / 2 ^ p + 1)%Z /\ (p = 0%Z -> N = M).
Proof.
  intros Hp (rho & E & B & Pm & C). cbv zeta. assert (P0 : (0 < 2 ^ p)%Z) by (apply Z.pow_pos_nonneg; lia).
  assert (D : (M / 2 ^ p = shr_m x)%Z) by (symmetry; apply (Z.div_unique M (2 ^ p) (shr_m x) rho); lia).
  rewrite D. assert (Z0 : p = 0%Z -> (2 ^ p = 1)%Z) by (intros ->; reflexivity).
  destruct x as [m r s]. cbn [shr_m shr_r shr_s] in *.
  destruct r, s; cbn [loc_of_shr_record round_nearest_even]; [| |split; [|split; [|split]]; try nia|split; [|split; [|split]]; try nia].
  - split; [lia|]. split; [|split; [lia|intro Hz; specialize (Z0 Hz); nia]].
    replace ((m + 1) * 2 ^ p - M)%Z with (2 ^ p - rho)%Z by lia. rewrite Z.abs_eq by lia. lia.
  - destruct (Z.even m); (split; [lia|]; split; [|split; [lia|intro Hz; specialize (Z0 Hz); nia]]).
    + replace (m * 2 ^ p - M)%Z with (- rho)%Z by lia. rewrite Z.abs_opp, Z.abs_eq by lia. lia.
    + replace ((m + 1) * 2 ^ p - M)%Z with (2 ^ p - rho)%Z by lia. rewrite Z.abs_eq by lia. lia.
Qed.

Lemma digits_bounds M : (0 < M)%Z -> (2 ^ (Zdigits2 M - 1) <= M < 2 ^ Zdigits2 M)%Z /\ (1 <= Zdigits2 M)%Z.
Proof. intro H. destruct M as [|m|m]; try lia. cbn [Zdigits2]. pose proof (digits2_ok m). lia. Qed.

Definition sgn (s : bool) : R := if s then -1 else 1.

(** Rounding a positive [M * 2^e] that has bits to spare. *)
Lemma round_aux_ok sx M e : (0 < M)%Z -> (e <= fexp prec emax (Zdigits2 M + e))%Z -> IZR M * pow2 e <= pow2 1000 ->
  exists y, sf_value (binary_round_aux prec emax sx M e loc_Exact) y /\
    Rabs (y - sgn sx * (IZR M * pow2 e)) <= Rmax (pow2 (-53) * (IZR M * pow2 e)) (pow2 (-1075)) /\
    ((-1074 <= e)%Z -> Rabs (y - sgn sx * (IZR M * pow2 e)) <= pow2 (-53) * (IZR M * pow2 e)).
Proof.
  intros HM HE HB. unfold binary_round_aux, shr_fexp. cbn [shr_record_of_loc].
  destruct (digits_bounds M HM) as [[D1 D2] D3]. set (d := Zdigits2 M) in *.
  set (E := fexp prec emax (d + e)) in *.
  assert (EV : E = Z.max (d + e - 53) (-1074)) by reflexivity.
  set (x0 := {| shr_m := M; shr_r := false; shr_s := false |}).
  assert (S0 : shifted M 0 x0) by (exists 0%Z; cbn; lia).
  assert (SH : exists x, shr x0 e (E - e) = (x, E) /\ shifted M (E - e) x).
  { destruct (E - e)%Z as [|p|p] eqn:Ep; cbn [shr].
    - exists x0. split; auto. f_equal. lia.
    - exists (iter_pos shr_1 p x0). split; [f_equal; lia|]. apply (shifted_iter M p 0 x0); auto. lia.
    - lia. }
  destruct SH as (x & -> & SX).
  destruct (shifted_round M (E - e) x ltac:(lia) SX) as (N0 & N1 & N2 & N3).
  set (N := round_nearest_even (shr_m x) (loc_of_shr_record x)) in *. set (p := (E - e)%Z) in *.
  assert (P0 : (0 < 2 ^ p)%Z) by (apply Z.pow_pos_nonneg; lia).
  assert (MP : pow2 (d - 1 + e) <= pow2 1000).
  { rewrite p2_add, (p2_IZR (d - 1)) by lia. pose proof (p2_pos e). apply IZR_le in D1. nra. }
  assert (DE : (d - 1 + e <= 1000)%Z).
  { destruct (Z_le_gt_dec (d - 1 + e) 1000); auto. exfalso.
    assert (pow2 (1000 + 1) <= pow2 (d - 1 + e)) by (apply p2_le; lia). rewrite p2_add, p2_1 in H. pose proof (p2_pos 1000). lra. }
  assert (E1 : (-1074 <= E <= 970)%Z) by lia.
  assert (NB : (N <= 2 ^ 53)%Z).
  { assert (M / 2 ^ p < 2 ^ 53)%Z; [|lia]. apply Z.div_lt_upper_bound; auto.
    rewrite <- Z.pow_add_r by lia. eapply Z.lt_le_trans; [exact D2|]. apply Z.pow_le_mono_r; lia. }
  assert (V : exists y, sf_value (let '(mrs'', e'') := shr {| shr_m := N; shr_r := false; shr_s := false |} E (fexp prec emax (Zdigits2 N + E) - E) in
      match shr_m mrs'' with
      | Z0 => S754_zero sx
      | Zpos m => if (e'' <=? emax - prec)%Z then S754_finite sx m e'' else S754_infinity sx
      | Zneg _ => S754_nan
      end) y /\ y = sgn sx * (IZR N * pow2 E)).
  { destruct (Z.eq_dec N 0) as [->|NZ].
    - cbn [Zdigits2]. assert (F : (fexp prec emax (0 + E) - E <= 0)%Z) by (unfold fexp, emin, prec, emax; lia).
      destruct (fexp prec emax (0 + E) - E)%Z; [| lia|]; cbn [shr shr_m sf_value]; exists 0; (split; [reflexivity|ring]).
    - destruct (digits_bounds N ltac:(lia)) as [[B1 B2] B3]. set (dn := Zdigits2 N) in *.
      destruct (Z.eq_dec N (2 ^ 53)) as [EN|NN].
      + assert (dn = 54%Z). { unfold dn. rewrite EN. reflexivity. }
        assert (F : (fexp prec emax (dn + E) - E = 1)%Z) by (unfold fexp, emin, prec, emax; lia).
        rewrite F. cbn [shr iter_pos shr_1]. rewrite EN. cbn [shr_m shr_1].
        change (2 ^ 53)%Z with (Zpos 9007199254740992). cbn [shr_1 shr_m].
        replace (E + 1 <=? emax - prec)%Z with true by (symmetry; apply Z.leb_le; unfold emax, prec; lia).
        eexists. split; [reflexivity|]. rewrite p2_add, p2_1.
        change 9007199254740992%positive with (2 * 4503599627370496)%positive. rewrite Pos2Z.inj_mul, mult_IZR. unfold sgn. ring.
      + assert (dn <= 53)%Z.
        { destruct (Z_le_gt_dec dn 53); auto. exfalso. assert (2 ^ 53 <= 2 ^ (dn - 1))%Z by (apply Z.pow_le_mono_r; lia). lia. }
        assert (F : (fexp prec emax (dn + E) - E <= 0)%Z) by (unfold fexp, emin, prec, emax; lia).
        assert (T : shr {| shr_m := N; shr_r := false; shr_s := false |} E (fexp prec emax (dn + E) - E) = ({| shr_m := N; shr_r := false; shr_s := false |}, E))
          by (destruct (fexp prec emax (dn + E) - E)%Z; auto; lia).
        rewrite T. cbn [shr_m]. destruct N as [|n|n] eqn:HN; try lia.
        replace (E <=? emax - prec)%Z with true by (symmetry; apply Z.leb_le; unfold emax, prec; lia).
        eexists. split; [reflexivity|]. unfold sgn. ring. }
  destruct V as (y & V1 & V2). exists y. split; [exact V1|].
  assert (PE : pow2 E = IZR (2 ^ p) * pow2 e) by (rewrite <- p2_IZR by lia; rewrite <- p2_add; f_equal; lia).
  assert (ERR : Rabs (y - sgn sx * (IZR M * pow2 e)) = IZR (Z.abs (N * 2 ^ p - M)) * pow2 e).
  { rewrite V2, PE. replace (sgn sx * (IZR N * (IZR (2 ^ p) * pow2 e)) - sgn sx * (IZR M * pow2 e)) with (sgn sx * (IZR (N * 2 ^ p - M) * pow2 e)) by (rewrite minus_IZR, mult_IZR; ring).
    rewrite !Rabs_mult, <- abs_IZR, (Rabs_right (pow2 e)) by (apply Rle_ge, Rlt_le, p2_pos).
    replace (Rabs (sgn sx)) with 1 by (unfold sgn; destruct sx; unfold Rabs; destruct (Rcase_abs _); lra). ring. }
  rewrite ERR. pose proof (p2_pos e) as Pe. pose proof (p2_pos (-53)) as P53.
  assert (HM' : 0 < IZR M) by (apply IZR_lt; auto).
  destruct (Z.eq_dec p 0) as [Ez|Np].
  { rewrite (N3 Ez), Ez. replace (Z.abs (M * 2 ^ 0 - M)) with 0%Z by (change (2 ^ 0)%Z with 1%Z; lia).
    assert (0 <= pow2 (-53) * (IZR M * pow2 e)) by (apply Rmult_le_pos; [lra|apply Rmult_le_pos; lra]).
    split; [|intro]; rewrite Rmult_0_l; auto. eapply Rle_trans; [eassumption|apply Rmax_l]. }
  assert (H2 : IZR (Z.abs (N * 2 ^ p - M)) * pow2 e <= pow2 (E - 1)).
  { replace (E - 1)%Z with (-1 + E)%Z by lia. rewrite p2_add, PE. apply IZR_le in N1. rewrite mult_IZR in N1.
    assert (Q : pow2 (-1) = / 2) by (pose proof (p2_add 1 (-1)) as Q0; change (1 + -1)%Z with 0%Z in Q0; rewrite p2_1 in Q0; unfold pow2 in *; cbn [powerRZ] in *; lra). rewrite Q. nra. }
  assert (H3 : E = (d + e - 53)%Z -> pow2 (E - 1) <= pow2 (-53) * (IZR M * pow2 e)).
  { intros ->. replace (d + e - 53 - 1)%Z with (-53 + ((d - 1) + e))%Z by lia. rewrite !p2_add, (p2_IZR (d - 1)) by lia.
    apply IZR_le in D1. apply Rmult_le_compat_l; [lra|]. apply Rmult_le_compat_r; lra. }
  split.
  - destruct (Z.eq_dec E (-1074)) as [El|Nl].
    + eapply Rle_trans; [exact H2|]. rewrite El. change (-1074 - 1)%Z with (-1075)%Z. apply Rmax_r.
    + eapply Rle_trans; [exact H2|]. eapply Rle_trans; [apply H3; lia|apply Rmax_l].
  - intro He. eapply Rle_trans; [exact H2|]. apply H3. lia.
Qed.

Lemma align_ok m e e' : (e' <= e)%Z -> IZR (Zpos (fst (shl_align m e e'))) * pow2 e' = IZR (Zpos m) * pow2 e /\ snd (shl_align m e e') = e'.
Proof.
  intro H. unfold shl_align. destruct (e' - e)%Z as [|d|d] eqn:D; try lia.
  - assert (e' = e) as -> by lia. auto.
  - cbn [fst snd]. split; auto. rewrite shift_pos_correct, mult_IZR.
    change (Z.pow_pos 2 d) with (2 ^ Z.pos d)%Z. rewrite <- p2_IZR by lia. assert (EE : e = (Z.pos d + e')%Z) by lia. rewrite EE, p2_add. ring.
Qed.

(** Rounding [m * 2^e]. *)
Lemma normalize_ok m e z : (-1074 <= e)%Z -> Rabs (IZR m * pow2 e) <= pow2 1000 ->
  exists y, sf_value (binary_normalize prec emax m e z) y /\ Rabs (y - IZR m * pow2 e) <= pow2 (-53) * Rabs (IZR m * pow2 e).
Proof.
  intros He HB. pose proof (p2_pos e) as Pe. pose proof (p2_pos (-53)) as P53.
  assert (G : forall s q, IZR (Zpos q) * pow2 e <= pow2 1000 -> exists y, sf_value (binary_round prec emax s q e) y /\
    Rabs (y - sgn s * (IZR (Zpos q) * pow2 e)) <= pow2 (-53) * (IZR (Zpos q) * pow2 e)).
  { intros s q HQ. unfold binary_round.
    set (E := fexp prec emax (Z.pos (digits2_pos q) + e)).
    assert (EV : E = Z.max (Z.pos (digits2_pos q) + e - 53) (-1074)) by reflexivity.
    destruct (Z_le_gt_dec e E) as [L|L].
    - assert (A : shl_align q e E = (q, e)) by (unfold shl_align; destruct (E - e)%Z eqn:Q; auto; lia).
      rewrite A. destruct (round_aux_ok s (Zpos q) e ltac:(lia) L HQ) as (y & Y1 & _ & Y2). exists y. auto.
    - destruct (align_ok q e E ltac:(lia)) as [A1 A2]. destruct (shl_align q e E) as [q' e''] eqn:A. cbn [fst snd] in *. subst e''.
      assert (D : (Zdigits2 (Zpos q') + E = Z.pos (digits2_pos q) + e)%Z).
      { unfold shl_align in A. destruct (E - e)%Z as [|k|k] eqn:Q; try lia. injection A as <-. cbn [Zdigits2].
        assert (Zpos (digits2_pos (shift_pos k q)) = Zpos (digits2_pos q) + Zpos k)%Z; [|lia].
        destruct (digits2_ok q) as [B1 B2]. destruct (digits2_ok (shift_pos k q)) as [C1 C2].
        rewrite shift_pos_correct in C1, C2. change (Z.pow_pos 2 k) with (2 ^ Z.pos k)%Z in *.
        set (a := Z.pos (digits2_pos q)) in *. set (b := Z.pos (digits2_pos (shift_pos k q))) in *.
        assert (1 <= a)%Z by (unfold a; lia). assert (1 <= b)%Z by (unfold b; lia).
        assert (X1 : (2 ^ (b - 1) < 2 ^ (a + Z.pos k))%Z) by (rewrite Z.pow_add_r by lia; nia).
        assert (X2 : (2 ^ (a - 1 + Z.pos k) < 2 ^ b)%Z) by (rewrite Z.pow_add_r by lia; nia).
        apply Z.pow_lt_mono_r_iff in X1; try lia. apply Z.pow_lt_mono_r_iff in X2; lia. }
      destruct (round_aux_ok s (Zpos q') E ltac:(lia)) as (y & Y1 & _ & Y2).
      + rewrite D. fold E. lia.
      + rewrite A1. exact HQ.
      + exists y. rewrite A1 in Y2. split; auto. apply Y2. lia. }
  destruct m as [|q|q]; cbn [binary_normalize].
  - exists 0. split; [reflexivity|]. rewrite !Rmult_0_l, Rminus_0_r, Rabs_R0. lra.
  - rewrite Rabs_right in HB by (apply Rle_ge, Rmult_le_pos; [apply IZR_le; lia|lra]).
    destruct (G false q HB) as (y & Y1 & Y2). exists y. split; auto. unfold sgn in Y2. rewrite Rmult_1_l in Y2.
    rewrite (Rabs_right (IZR (Z.pos q) * pow2 e)) by (apply Rle_ge, Rmult_le_pos; [apply IZR_le; lia|lra]). auto.
  - replace (IZR (Z.neg q)) with (- IZR (Z.pos q)) in * by (rewrite <- opp_IZR; reflexivity).
    replace (- IZR (Z.pos q) * pow2 e) with (- (IZR (Z.pos q) * pow2 e)) in * by ring. rewrite Rabs_Ropp in HB |- *.
    rewrite Rabs_right in HB by (apply Rle_ge, Rmult_le_pos; [apply IZR_le; lia|lra]).
    destruct (G true q HB) as (y & Y1 & Y2). exists y. split; auto. unfold sgn in Y2.
    replace (-1 * (IZR (Z.pos q) * pow2 e)) with (- (IZR (Z.pos q) * pow2 e)) in Y2 by ring.
    rewrite (Rabs_right (IZR (Z.pos q) * pow2 e)) by (apply Rle_ge, Rmult_le_pos; [apply IZR_le; lia|lra]). auto.
Qed.

(** The sum of two doubles is the exact sum but for half a unit of the last bit. *)
Lemma add_ok f g x y : is_value f x -> is_value g y -> Rabs (x + y) <= pow2 1000 ->
  exists z, is_value (f + g)%float z /\ Rabs (z - (x + y)) <= pow2 (-53) * Rabs (x + y).
Proof.
  unfold is_value. intros X Y B. rewrite add_spec. pose proof (Prim2SF_valid f) as VF. pose proof (Prim2SF_valid g) as VG.
  pose proof (p2_pos (-53)) as P53. pose proof (Rabs_pos (x + y)) as PA.
  assert (Exact : forall v z, sf_value v z -> z = x + y -> exists z, sf_value v z /\ Rabs (z - (x + y)) <= pow2 (-53) * Rabs (x + y)).
  { intros v z Hz ->. exists (x + y). split; auto. replace (x + y - (x + y)) with 0 by ring. rewrite Rabs_R0. nra. }
  destruct (Prim2SF f) as [sf|sf| |sf mf ef]; cbn [sf_value] in X; try contradiction;
  destruct (Prim2SF g) as [sg|sg| |sg mg eg]; cbn [sf_value] in Y; try contradiction; unfold SF64add; cbn [SFadd].
  - apply (Exact _ 0); [destruct (Bool.eqb sf sg); reflexivity|lra].
  - apply (Exact _ y); [exact Y|lra].
  - apply (Exact _ x); [exact X|lra].
  - apply valid_iff in VF. apply valid_iff in VG. set (ez := Z.min ef eg).
    destruct (align_ok mf ef ez ltac:(lia)) as [A1 _]. destruct (align_ok mg eg ez ltac:(lia)) as [A2 _].
    set (a := fst (shl_align mf ef ez)) in *. set (b := fst (shl_align mg eg ez)) in *.
    assert (S : IZR (cond_Zopp sf (Z.pos a) + cond_Zopp sg (Z.pos b)) * pow2 ez = x + y).
    { rewrite plus_IZR, Rmult_plus_distr_r.
      assert (T : forall s q, IZR (cond_Zopp s (Z.pos q)) = (if s then -1 else 1) * IZR (Z.pos q)).
      { intros [|] q; cbn [cond_Zopp]; [rewrite opp_IZR|]; ring. }
      rewrite !T, !Rmult_assoc, A1, A2, X, Y. ring. }
    destruct (normalize_ok (cond_Zopp sf (Z.pos a) + cond_Zopp sg (Z.pos b)) ez false) as (z & Z1 & Z2); [lia|rewrite S; exact B|].
    rewrite S in Z2. exists z. split; [exact Z1|exact Z2].
Qed.

(** The product likewise, but for the smallest numbers. *)
Lemma mul_ok f g x y : is_value f x -> is_value g y -> Rabs (x * y) <= pow2 1000 ->
  exists z, is_value (f * g)%float z /\ Rabs (z - x * y) <= Rmax (pow2 (-53) * Rabs (x * y)) (pow2 (-1075)).
Proof.
  unfold is_value. intros X Y B. rewrite mul_spec. pose proof (Prim2SF_valid f) as VF. pose proof (Prim2SF_valid g) as VG.
  pose proof (p2_pos (-53)) as P53. pose proof (Rabs_pos (x * y)) as PA. pose proof (p2_pos (-1075)) as P1075.
  assert (Zero : forall s, x * y = 0 -> exists z, sf_value (S754_zero s) z /\ Rabs (z - x * y) <= Rmax (pow2 (-53) * Rabs (x * y)) (pow2 (-1075))).
  { intros s Hz. exists 0. split; [reflexivity|]. rewrite Hz, Rminus_0_r, Rabs_R0. eapply Rle_trans; [|apply Rmax_r]. lra. }
  destruct (Prim2SF f) as [sf|sf| |sf mf ef]; cbn [sf_value] in X; try contradiction;
  destruct (Prim2SF g) as [sg|sg| |sg mg eg]; cbn [sf_value] in Y; try contradiction; unfold SF64mul; cbn [SFmul].
  - apply Zero. rewrite X; ring.
  - apply Zero. rewrite X; ring.
  - apply Zero. rewrite Y; ring.
  - apply valid_iff in VF. apply valid_iff in VG.
    assert (S : x * y = sgn (xorb sf sg) * (IZR (Z.pos (mf * mg)) * pow2 (ef + eg))).
    { rewrite X, Y, p2_add, Pos2Z.inj_mul, mult_IZR. unfold sgn. destruct sf, sg; simpl; ring. }
    assert (PS : 0 < IZR (Z.pos (mf * mg)) * pow2 (ef + eg)) by (apply Rmult_lt_0_compat; [apply IZR_lt; lia|apply p2_pos]).
    assert (AB : Rabs (x * y) = IZR (Z.pos (mf * mg)) * pow2 (ef + eg)).
    { rewrite S, Rabs_mult, (Rabs_right (IZR _ * _)) by lra.
      replace (Rabs (sgn (xorb sf sg))) with 1 by (unfold sgn; destruct (xorb sf sg); unfold Rabs; destruct (Rcase_abs _); lra). ring. }
    destruct (round_aux_ok (xorb sf sg) (Z.pos (mf * mg)) (ef + eg)) as (z & Z1 & Z2 & _); [lia| |rewrite <- AB; exact B|].
    + destruct (digits_bounds (Z.pos (mf * mg)) ltac:(lia)) as [[D1 D2] D3]. set (d := Zdigits2 (Z.pos (mf * mg))) in *.
      assert (F : (d + (ef + eg) - 53 <= fexp prec emax (d + (ef + eg)) /\ -1074 <= fexp prec emax (d + (ef + eg)))%Z) by (unfold fexp, emin, prec, emax; lia).
      assert (C : (2 ^ 52 <= Z.pos mf \/ 2 ^ 52 <= Z.pos mg \/ (ef = -1074 /\ eg = -1074))%Z) by lia.
      destruct C as [C|[C|[-> ->]]]; [| |lia].
      * assert (2 ^ 52 < 2 ^ d)%Z by lia. apply Z.pow_lt_mono_r_iff in H; lia.
      * assert (2 ^ 52 < 2 ^ d)%Z by lia. apply Z.pow_lt_mono_r_iff in H; lia.
    + exists z. split; auto. rewrite AB, S. exact Z2.
Qed.

(** Comparing doubles compares their values. *)
Lemma ltb_ok f g x y : is_value f x -> is_value g y -> ((f <? g)%float = true <-> x < y).
Proof.
  unfold is_value. intros X Y. rewrite ltb_spec. pose proof (Prim2SF_valid f) as VF. pose proof (Prim2SF_valid g) as VG.
  assert (Pos : forall m e, 0 < IZR (Z.pos m) * pow2 e) by (intros; apply Rmult_lt_0_compat; [apply IZR_lt; lia|apply p2_pos]).
  assert (LT : forall m1 e1 m2 e2, valid (S754_finite false m1 e1) = true -> valid (S754_finite false m2 e2) = true -> (e1 < e2)%Z ->
    IZR (Z.pos m1) * pow2 e1 < IZR (Z.pos m2) * pow2 e2).
  { intros m1 e1 m2 e2 V1 V2 L. apply valid_iff in V1. apply valid_iff in V2.
    assert (H2 : (2 ^ 52 <= Z.pos m2)%Z) by lia. assert (H1 : (Z.pos m1 < 2 * 2 ^ 52)%Z) by lia.
    apply IZR_le in H2. apply IZR_lt in H1. rewrite mult_IZR in H1.
    pose proof (p2_le (1 + e1) e2 ltac:(lia)) as PL. rewrite p2_add, p2_1 in PL. pose proof (p2_pos e1) as P1.
    assert (IZR (Z.pos m1) * pow2 e1 < 2 * IZR (2 ^ 52) * pow2 e1) by (apply Rmult_lt_compat_r; auto).
    assert (IZR (2 ^ 52) * (2 * pow2 e1) <= IZR (Z.pos m2) * pow2 e2).
    { apply Rmult_le_compat; auto; [apply IZR_le; lia|lra]. }
    lra. }
  unfold SFltb.
  destruct (Prim2SF f) as [sf|sf| |sf mf ef]; cbn [sf_value] in X; try contradiction;
  destruct (Prim2SF g) as [sg|sg| |sg mg eg]; cbn [sf_value] in Y; try contradiction; cbn [SFcompare].
  - split; [discriminate|lra].
  - pose proof (Pos mg eg). destruct sg; (split; intro H0; [try discriminate; try lra|try reflexivity; exfalso; lra]).
  - pose proof (Pos mf ef). destruct sf; (split; intro H0; [try discriminate; try lra|try reflexivity; exfalso; lra]).
  - pose proof (Pos mf ef). pose proof (Pos mg eg).
    assert (VF' : valid (S754_finite false mf ef) = true) by (destruct sf; exact VF).
    assert (VG' : valid (S754_finite false mg eg) = true) by (destruct sg; exact VG).
    destruct sf, sg.
    + destruct (Z.compare_spec ef eg) as [->|L|L].
      * change (Pcompare mf mg Eq) with (Pos.compare mf mg). pose proof (p2_pos eg) as PE.
        destruct (Pos.compare_spec mf mg) as [->|L|L]; cbn [CompOpp]; (split; intro H1; [try discriminate|try reflexivity; exfalso]).
        -- lra.
        -- assert (IZR (Z.pos mf) < IZR (Z.pos mg)) by (apply IZR_lt; lia). nra.
        -- assert (IZR (Z.pos mg) < IZR (Z.pos mf)) by (apply IZR_lt; lia). nra.
      * pose proof (LT _ _ _ _ VF' VG' L). split; intro; [discriminate|exfalso; lra].
      * pose proof (LT _ _ _ _ VG' VF' L). split; intro; auto. lra.
    + split; intro; auto. lra.
    + split; intro; [discriminate|exfalso; lra].
    + destruct (Z.compare_spec ef eg) as [->|L|L].
      * change (Pcompare mf mg Eq) with (Pos.compare mf mg). pose proof (p2_pos eg) as PE.
        destruct (Pos.compare_spec mf mg) as [->|L|L]; (split; intro H1; [try discriminate|try reflexivity; exfalso]).
        -- lra.
        -- assert (IZR (Z.pos mf) < IZR (Z.pos mg)) by (apply IZR_lt; lia). nra.
        -- assert (IZR (Z.pos mg) < IZR (Z.pos mf)) by (apply IZR_lt; lia). nra.
      * pose proof (LT _ _ _ _ VF' VG' L). split; intro; auto. lra.
      * pose proof (LT _ _ _ _ VG' VF' L). split; intro; [discriminate|exfalso; lra].
Qed.
