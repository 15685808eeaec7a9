(** Theorems about points as ordered and hashed keys (properties C177, C178). *)
From Coq Require Import List Arith ZArith Lia Bool Reals Lra Floats SpecFloat.
From Verif Require Import Outcome Num Point_Model Angle_Model Codec_Spec.
Import ListNotations.
Open Scope R_scope.

(** C177: operator< on points is the strict lexicographic order of x and y. *)
Theorem point_order : 
  (forall a b : rpoint, p_lt RNum a b = true <-> px a < px b \/ px a = px b /\ py a < py b) /\
  (forall a : rpoint, p_lt RNum a a = false) /\
  (forall a b c : rpoint, p_lt RNum a b = true -> p_lt RNum b c = true -> p_lt RNum a c = true) /\
  (forall a b : rpoint, p_lt RNum a b = false /\ p_lt RNum b a = false <-> px a = px b /\ py a = py b).
Proof.
  assert (L : forall a b : rpoint, p_lt RNum a b = true <-> px a < px b \/ px a = px b /\ py a < py b).
  { intros a b. unfold p_lt. cbn [nltb neqb RNum]. unfold Rltb, Reqb.
    destruct (Rlt_dec (px a) (px b)), (Req_EM_T (px a) (px b)), (Rlt_dec (py a) (py b)); cbn; split; intro H;
      try reflexivity; try discriminate; try lra; tauto. }
  assert (F : forall a b : rpoint, p_lt RNum a b = false <-> ~ (px a < px b \/ px a = px b /\ py a < py b)).
  { intros a b. rewrite <- L. destruct (p_lt RNum a b); split; intro H; congruence. }
  split; [exact L|]. split; [intro a; apply F; lra|]. split.
  - intros a b c H1 H2. apply L in H1, H2. apply L. lra.
  - intros a b. rewrite !F. lra.
Qed.
Print Assumptions point_order.

(** C177: operator!= is the opposite of operator==, which compares with a tolerance. *)
Theorem point_ne : forall a b : rpoint, p_ne RNum a b = true <->
  ~ (Rabs (px a - px b) < 1 / 10000000 /\ Rabs (py a - py b) < 1 / 10000000 /\ Rabs (pz a - pz b) < 1 / 10000000).
Proof.
  intros a b. unfold p_ne, p_eq, p_eps. cbn [nltb nabs nsub ndiv nofZ RNum]. unfold Rltb.
  destruct (Rlt_dec (Rabs (px a - px b)) (1 / 10000000)), (Rlt_dec (Rabs (py a - py b)) (1 / 10000000)), (Rlt_dec (Rabs (pz a - pz b)) (1 / 10000000));
    cbn; split; intro H; try reflexivity; try discriminate; try tauto.
Qed.
Print Assumptions point_ne.

(** Equal within the tolerance, yet ordered. *)
Example point_order_ex : exists a b : rpoint, p_lt RNum a b = true /\ p_ne RNum a b = false.
Proof.
  exists (mkPoint (N := RNum) 0 0 0), (mkPoint (N := RNum) (1 / 100000000) 0 0). split.
  - apply point_order. cbn. lra.
  - destruct (p_ne RNum _ _) eqn:E; [|reflexivity]. apply point_ne in E. exfalso. apply E. cbn [px py pz].
    rewrite !Rminus_0_r, Rabs_R0. unfold Rminus. rewrite Rplus_0_l, Rabs_Ropp, Rabs_right; lra.
Qed.

Lemma trunc_value x : match float_trunc x with
  | Some z => exists v, is_value x v /\ ((0 <= v -> IZR z <= v < IZR z + 1) /\ (v <= 0 -> IZR z - 1 < v <= IZR z))
  | None => forall v, ~ is_value x v end.
Proof.
  unfold float_trunc, is_value. destruct (Prim2SF x) as [s|s| |s m e]; cbn [sf_value].
  - exists 0. split; [reflexivity|]. split; intros; lra.
  - tauto.
  - tauto.
  - exists ((if s then -1 else 1) * IZR (Zpos m) * pow2 e). split; [reflexivity|].
    set (a := if (0 <=? e)%Z then (Z.pos m * 2 ^ e)%Z else (Z.pos m / 2 ^ (- e))%Z).
    assert (M : 0 < IZR (Z.pos m)) by (apply IZR_lt; lia).
    assert (E : 0 < pow2 e) by (unfold pow2; apply powerRZ_lt; lra).
    assert (A : IZR a <= IZR (Z.pos m) * pow2 e < IZR a + 1).
    { subst a. destruct (Z.leb_spec 0 e) as [L|L].
      - assert (Q : IZR (2 ^ e) = pow2 e).
        { unfold pow2. destruct (Z_of_nat_complete e L) as [k ->]. rewrite <- pow_powerRZ, <- pow_IZR. reflexivity. }
        rewrite mult_IZR, Q. lra.
      - set (k := Z.to_nat (- e)). assert (K : (- e)%Z = Z.of_nat k) by (unfold k; lia).
        assert (Q : pow2 e = / IZR (2 ^ (- e))).
        { unfold pow2. replace e with (- Z.of_nat k)%Z at 1 by lia. rewrite K. rewrite <- pow_IZR. rewrite pow_powerRZ.
          rewrite powerRZ_neg'. reflexivity. }
        assert (P0 : (0 < 2 ^ (- e))%Z) by (apply Z.pow_pos_nonneg; lia).
        assert (P1 : 0 < IZR (2 ^ (- e))) by (apply IZR_lt; exact P0).
        pose proof (Z.div_mod (Z.pos m) (2 ^ (- e)) ltac:(lia)) as DM. pose proof (Z.mod_pos_bound (Z.pos m) (2 ^ (- e)) P0) as MB.
        apply (f_equal IZR) in DM. rewrite plus_IZR, mult_IZR in DM. destruct MB as [B1 B2]. apply IZR_le in B1. apply IZR_lt in B2.
        rewrite Q. split.
        + apply Rmult_le_reg_r with (IZR (2 ^ (- e))); auto. rewrite Rmult_assoc, Rinv_l by lra. lra.
        + apply Rmult_lt_reg_r with (IZR (2 ^ (- e))); auto. rewrite Rmult_assoc, Rinv_l by lra. lra. }
    fold a. assert (V : 0 < IZR (Z.pos m) * pow2 e) by (apply Rmult_lt_0_compat; auto).
    destruct s; [rewrite opp_IZR|]; split; intro X; lra.
Qed.

(** C178: the hash of a point is the number x + y*1e10 + z*1e20, computed in doubles and
    cut towards zero; it is defined exactly when that is above -1 and below 2^64. *)
Definition hash_key (p : point FNum) : float := (px p + py p * 10000000000 + pz p * (10000000000 * 10000000000))%float.

Lemma value_unique f v w : is_value f v -> is_value f w -> v = w.
Proof. unfold is_value. destruct (Prim2SF f); cbn [sf_value]; intros; try tauto; congruence. Qed.

Theorem hash_meaning : forall p,
  (forall z, p_hash p = Ok z <-> exists v, is_value (hash_key p) v /\ (0 <= z < 2 ^ 64)%Z /\
     (0 <= v -> IZR z <= v < IZR z + 1) /\ (v <= 0 -> z = 0%Z /\ -1 < v)) /\
  ((forall z, p_hash p <> Ok z) -> p_hash p = UB).
Proof.
  intro p. change (p_hash p) with (to_size_t (hash_key p)). generalize (hash_key p). clear p. intro x. unfold to_size_t.
  pose proof (trunc_value x) as T. destruct (float_trunc x) as [t|].
  - destruct T as (v & V & T1 & T2). destruct ((0 <=? t)%Z && (t <? 2 ^ 64)%Z) eqn:B.
    + apply andb_true_iff in B. destruct B as [B1 B2]. apply Z.leb_le in B1. apply Z.ltb_lt in B2.
      split; [|intro H; exfalso; exact (H t eq_refl)]. intro z. split.
      * intro E. injection E as <-. exists v. split; [exact V|]. split; [lia|]. split; [exact T1|]. intro N0. specialize (T2 N0).
        assert (t = 0%Z) as ->; [|split; [reflexivity|lra]].
        assert (IZR t < 1) by lra. assert (t < 1)%Z by (apply lt_IZR; lra). lia.
      * intros (w & Wv & Z0 & W1 & W2). rewrite (value_unique x w v Wv V) in *. f_equal.
        destruct (Rle_or_lt 0 v) as [P|P].
        -- specialize (T1 P). specialize (W1 P). apply Z.le_antisymm; apply Z.lt_succ_r; apply lt_IZR; rewrite succ_IZR; lra.
        -- destruct (W2 ltac:(lra)) as [-> _]. specialize (T2 ltac:(lra)).
           assert (t < 1)%Z; [|lia]. apply lt_IZR. lra.
    + split; [|reflexivity]. intro z. split; [discriminate|]. intros (w & Wv & Z0 & W1 & W2). exfalso.
      rewrite (value_unique x w v Wv V) in *. apply andb_false_iff in B.
      assert (t = z) as ->; [|rewrite (proj2 (Z.leb_le 0 z)), (proj2 (Z.ltb_lt z (2 ^ 64))) in B by lia; destruct B; discriminate].
      destruct (Rle_or_lt 0 v) as [P|P].
      * specialize (T1 P). specialize (W1 P). apply Z.le_antisymm; apply Z.lt_succ_r; apply lt_IZR; rewrite succ_IZR; lra.
      * destruct (W2 ltac:(lra)) as [-> W3]. specialize (T2 ltac:(lra)).
        assert (IZR t < 1 /\ -1 < IZR t) as [Q1 Q2] by lra. apply lt_IZR in Q1. apply lt_IZR in Q2. lia.
  - split; [|reflexivity]. intro z. split; [discriminate|]. intros (w & Wv & _). exfalso. exact (T w Wv).
Qed.
Print Assumptions hash_meaning.

(** Points 1/2 to the left of the origin have hash 0, 2^30 + 1/2 is cut, -1 is undefined. *)
Example hash_meaning_ex :
  p_hash (@mkPoint FNum (-0.5) 0 0)%float = Ok 0%Z /\ p_hash (@mkPoint FNum (1073741824.5) 0 0)%float = Ok 1073741824%Z /\
  p_hash (@mkPoint FNum 0 0x1p20 0)%float = Ok 10485760000000000%Z /\ p_hash (@mkPoint FNum (-1) 0 0)%float = UB.
Proof. repeat split; vm_compute; reflexivity. Qed.
