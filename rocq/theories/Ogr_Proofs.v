(** Lemmas about geometries given by GDAL. *)
From Coq Require Import List Arith Lia ZArith Bool Reals Lra FinFun.
From Verif Require Import Outcome Num ListAux Point_Model Container_Model Container_Proofs Angle_Spec Ogr_Model Ogr_Spec.
Import ListNotations.
Local Open Scope nat_scope.

Lemma fold_add {A} (l d : list A) : fold_left (coll_addGeometry (A := A)) l d = d ++ l.
Proof.
  revert d. induction l as [|a l IH]; intros d; cbn [fold_left]; [now rewrite app_nil_r|].
  rewrite IH. unfold coll_addGeometry. now rewrite <- app_assoc.
Qed.

Lemma fold_add2 {A} (ls : list (list A)) d : fold_left (fun d l => fold_left (coll_addGeometry (A := A)) l d) ls d = d ++ concat ls.
Proof.
  revert d. induction ls as [|l ls IH]; intros d; cbn [fold_left concat]; [now rewrite app_nil_r|].
  rewrite IH, fold_add. now rewrite <- app_assoc.
Qed.

Definition seg_point (q r : pt) (t : R) : pt :=
  mkPoint (N := RNum) (px q + t * (px r - px q))%R (py q + t * (py r - py q))%R (pz q + t * (pz r - pz q))%R.

Lemma seg_point_on q r t : (0 <= t <= 1)%R -> on_segment q r (seg_point q r t).
Proof. intros H. exists t. repeat split; auto; apply H. Qed.

Lemma segment_infinite (q r : pt) (ps : list pt) : r <> q -> ~ (forall s, on_segment q r s -> In s ps).
Proof.
  intros D H. set (n := length ps).
  set (f := fun i => seg_point q r (INR i / INR (S n))).
  assert (Pn : (0 < INR (S n))%R) by (apply lt_0_INR; lia).
  assert (Inj : Injective f).
  { intros i j E. unfold f, seg_point in E.
    assert (X : (INR i / INR (S n) * (px r - px q) = INR j / INR (S n) * (px r - px q))%R) by (apply (f_equal (@px RNum)) in E; exact (Rplus_eq_reg_l _ _ _ E)).
    assert (Y : (INR i / INR (S n) * (py r - py q) = INR j / INR (S n) * (py r - py q))%R) by (apply (f_equal (@py RNum)) in E; exact (Rplus_eq_reg_l _ _ _ E)).
    assert (Z : (INR i / INR (S n) * (pz r - pz q) = INR j / INR (S n) * (pz r - pz q))%R) by (apply (f_equal (@pz RNum)) in E; exact (Rplus_eq_reg_l _ _ _ E)).
    assert (C : (INR i / INR (S n) = INR j / INR (S n))%R).
    { assert (K : (px r - px q <> 0 \/ py r - py q <> 0 \/ pz r - pz q <> 0)%R).
      { destruct (Req_dec (px r - px q) 0) as [A|A]; [|now left]. destruct (Req_dec (py r - py q) 0) as [B|B]; [|right; now left].
        destruct (Req_dec (pz r - pz q) 0) as [C|C]; [|right; now right]. exfalso. apply D. destruct r as [a b c], q as [a' b' c']. cbn [px py pz] in A, B, C. apply Rminus_diag_uniq in A, B, C. congruence. }
      destruct K as [K|[K|K]]; [exact (Rmult_eq_reg_r _ _ _ X K)|exact (Rmult_eq_reg_r _ _ _ Y K)|exact (Rmult_eq_reg_r _ _ _ Z K)]. }
    apply INR_eq. apply Rmult_eq_reg_r with (/ INR (S n))%R; [exact C|]. apply Rinv_neq_0_compat. lra. }
  assert (L : length (map f (seq 0 (S n))) <= length ps).
  { apply NoDup_incl_length; [apply Injective_map_NoDup; [exact Inj|apply seq_NoDup]|].
    intros s I. apply in_map_iff in I as [i [<- I]]. apply in_seq in I. apply H. apply seg_point_on.
    assert (A : (0 <= INR i)%R) by apply pos_INR. assert (B : (INR i <= INR (S n))%R) by (apply le_INR; lia).
    split; [apply Rmult_le_pos; [exact A|left; now apply Rinv_0_lt_compat]|].
    apply Rmult_le_reg_r with (INR (S n)); [exact Pn|]. unfold Rdiv. rewrite Rmult_assoc, Rinv_l by lra. lra. }
  rewrite map_length, seq_length in L. unfold n in L. lia.
Qed.

Lemma on_segment_start (q r : pt) : on_segment q r q.
Proof. exists 0%R. repeat split; lra. Qed.

Lemma on_line_points (l : list pt) q : on_line l q -> l <> [].
Proof. destruct l; [intros []|discriminate]. Qed.

(** The pieces of an unmixed answer. *)
Lemma pieces_unmixed region lines c g : cut_exactly region lines c g -> unmixed g ->
  forall q, (exists piece, In piece (ml_of_ogr RNum g) /\ on_line piece q) -> (exists l, In l lines /\ on_line l q) /\ region c q.
Proof.
  intros H U q [piece [I O]]. apply H. unfold ml_of_ogr, ml_append in I. destruct g; cbn [unmixed] in U; try contradiction; cbn [points_of]; cbv iota in I; cbn [In app] in I; try contradiction.
  - destruct (line_isEmpty RNum l); [destruct I|]. destruct I as [<-|[]]. exact O.
  - rewrite fold_add in I. exists piece. auto.
Qed.

Lemma stretch_pieces region lines c g line q : cut_exactly region lines c g -> unmixed g ->
  In line lines -> stretch region c line q -> exists piece, In piece (ml_of_ogr RNum g) /\ on_line piece q.
Proof.
  intros H U L [r [D S_]].
  assert (P : forall s, on_segment q r s -> points_of region g s).
  { intros s Hs. apply H. destruct (S_ s Hs). split; [exists line|]; auto. }
  destruct g; cbn [unmixed] in U; try contradiction; cbn [points_of] in P.
  - exfalso. apply (segment_infinite q r [p] D). intros s Hs. left. symmetry. now apply P.
  - exists l. split; [|apply P, on_segment_start]. unfold ml_of_ogr, ml_append.
    assert (O := P q (on_segment_start q r)). destruct l; [destruct O|]. left. reflexivity.
  - exfalso. apply (segment_infinite q r ps D). exact P.
  - destruct (P q (on_segment_start q r)) as [l [I O]]. exists l. split; [|exact O]. unfold ml_of_ogr, ml_append. now rewrite fold_add.
  - subst gs. exfalso. exact (P q (on_segment_start q r)).
Qed.

Lemma segments_from {N : Num} (l : list (point N)) : l <> [] -> (Z.of_nat (length l) < 2 ^ 64)%Z -> forall k i res fuel,
  i + k = length l - 1 -> k <= fuel -> segments_loop N fuel l i res = Ok (res ++ pairs (skipn i l)).
Proof.
  intros NE B. assert (M : ((Z.of_nat (length l) - 1) mod 2 ^ 64 = Z.of_nat (length l) - 1)%Z).
  { apply Z.mod_small. destruct l; [contradiction|]. cbn [length] in *. lia. }
  assert (Ln : length l <> 0) by (destruct l; [contradiction|discriminate]).
  induction k as [|k IH]; intros i res fuel E F.
  - destruct fuel as [|fuel]; cbn [segments_loop]; rewrite M, (proj2 (Z.ltb_ge _ _)) by lia.
    + replace (pairs (skipn i l)) with (@nil (list (point N))); [now rewrite app_nil_r|].
      unfold pairs. assert (Ls : length (skipn i l) = 1) by (rewrite skipn_length; lia). destruct (skipn i l) as [|a [|b t]]; try discriminate. reflexivity.
    + replace (pairs (skipn i l)) with (@nil (list (point N))); [now rewrite app_nil_r|].
      unfold pairs. assert (Ls : length (skipn i l) = 1) by (rewrite skipn_length; lia). destruct (skipn i l) as [|a [|b t]]; try discriminate. reflexivity.
  - destruct fuel as [|fuel]; [lia|]. cbn [segments_loop]. rewrite M, (proj2 (Z.ltb_lt _ _)) by lia.
    assert (X : exists a, nth_error l i = Some a) by (destruct (nth_error l i) eqn:Q; [eauto|apply nth_error_None in Q; lia]).
    assert (Y : exists b, nth_error l (i + 1) = Some b) by (destruct (nth_error l (i + 1)) eqn:Q; [eauto|apply nth_error_None in Q; lia]).
    destruct X as [a X], Y as [b Y]. unfold line_getGeometry, vec_at. rewrite X, Y; cbn [bind].
    rewrite IH by lia. unfold coll_addGeometry. rewrite <- app_assoc. f_equal. f_equal.
    assert (Sk : skipn i l = a :: skipn (i + 1) l).
    { apply nth_error_split in X as [l1 [l2 [-> L1]]]. rewrite <- L1, skipn_app, skipn_all, Nat.sub_diag. cbn [skipn app].
      rewrite skipn_app. replace (length l1 + 1 - length l1) with 1 by lia. rewrite skipn_all2 by lia. reflexivity. }
    assert (Sk2 : exists t, skipn (i + 1) l = b :: t).
    { apply nth_error_split in Y as [l1 [l2 [-> L1]]]. rewrite <- L1, skipn_app, skipn_all, Nat.sub_diag. cbn [skipn app]. eauto. }
    destruct Sk2 as [t Sk2]. rewrite Sk, Sk2. reflexivity.
Qed.
