(** Theorems about borders (properties C67, C79, C137-C139). *)
From Coq Require Import List Arith Lia ZArith Bool Reals Lra.
From Verif Require Import Outcome Num ListAux Point_Model Angle_Model Angle_Spec Angle_Proofs Angle_Props SwathGen_Model SwathGen_Spec SwathGen_Proofs
  Container_Model Container_Proofs Border_Model Border_Spec Border_Proofs.
Import ListNotations.
Open Scope R_scope.

(** *** Convexity (C67, C137) *)

(** The test of a cell with positive area, no holes and no repeated points: the
    border turns left (or goes straight on) at every inner point, or turns right at
    every inner point.  The first point, which is also the last, is not looked at. *)
Theorem convex_test : forall area (border : list pt),
  0 < area [border] -> (3 <= length border)%nat -> no_stop border ->
  exists b, cell_isConvex area [border] = Ok b /\
    (b = true <-> (forall x y z, successive border x y z -> leftwards x y z) \/
                  (forall x y z, successive border x y z -> rightwards x y z)).
Proof. exact cell_convex_ok. Qed.

(** Rings turning strictly to the same side at every vertex are accepted. *)
Theorem convex_accepts : forall area (v : list pt),
  0 < area [ring_of v] -> (2 <= length v)%nat -> no_stop (ring_of v) ->
  ((forall x y z, corner v x y z -> 0 < cross x y z) \/ (forall x y z, corner v x y z -> cross x y z < 0)) ->
  cell_isConvex area [ring_of v] = Ok true.
Proof.
  intros area v A L N H. destruct (convex_test area (ring_of v) A) as [b [E B]]; auto.
  - destruct v as [|a v]; [cbn [length] in L; lia|]. unfold ring_of. rewrite app_length; cbn [length] in *; lia.
  - rewrite E. f_equal. apply B. destruct H as [H|H]; [left|right]; intros x y z S; left; apply H; now left.
Qed.

(** For rings without straight corners the test together with the corner at the start
    is the property of C67. *)
Theorem convex_with_start : forall area a b c (m : list pt),
  let v := a :: b :: c :: m in
  0 < area [ring_of v] -> no_stop (ring_of v) -> (forall x y z, corner v x y z -> cross x y z <> 0) ->
  ((cell_isConvex area [ring_of v] = Ok true /\ 0 < cross (last v a) a b * cross a b c) <->
   ((forall x y z, corner v x y z -> 0 < cross x y z) \/ (forall x y z, corner v x y z -> cross x y z < 0))).
Proof.
  intros area a b c m' v A N S.
  assert (L : (3 <= length (ring_of v))%nat) by (unfold v, ring_of; rewrite app_length; cbn [length]; lia).
  destruct (convex_test area (ring_of v) A L N) as [r [E B]].
  assert (C0 : corner v (last v a) a b) by (right; exists (c :: m'); split; reflexivity).
  assert (S1 : successive (ring_of v) a b c) by (exists [], (m' ++ [a]); reflexivity).
  assert (C1 : corner v a b c) by (now left).
  pose proof (S _ _ _ C0) as N0. pose proof (S _ _ _ C1) as N1.
  assert (CS : forall x y z, corner v x y z -> successive (ring_of v) x y z \/ (x = last v a /\ y = a /\ z = b)).
  { intros x y z [K|[k [K1 K2]]]; [now left|right]. unfold v in K1. injection K1 as <- <- _. now rewrite K2. }
  split.
  - intros [T P]. rewrite E in T. injection T as ->. destruct (proj1 B eq_refl) as [G|G].
    + left. intros x y z K. pose proof (S _ _ _ K) as Z. destruct (CS _ _ _ K) as [Q|[-> [-> ->]]].
      * destruct (G _ _ _ Q) as [?|[Z' _]]; [auto|contradiction].
      * destruct (G _ _ _ S1) as [X|[Z' _]]; [|contradiction].
        destruct (Rlt_le_dec 0 (cross (last v a) a b)) as [Y|Y]; auto. exfalso.
        assert (cross (last v a) a b * cross a b c <= 0); [|lra].
        replace 0 with (0 * cross a b c) by ring. apply Rmult_le_compat_r; lra.
    + right. intros x y z K. pose proof (S _ _ _ K) as Z. destruct (CS _ _ _ K) as [Q|[-> [-> ->]]].
      * destruct (G _ _ _ Q) as [?|[Z' _]]; [auto|contradiction].
      * destruct (G _ _ _ S1) as [X|[Z' _]]; [|contradiction].
        destruct (Rlt_le_dec (cross (last v a) a b) 0) as [Y|Y]; auto. exfalso.
        assert (cross (last v a) a b * cross a b c <= 0); [|lra].
        assert (0 <= cross (last v a) a b * (- cross a b c)) by (apply Rmult_le_pos; lra). lra.
  - intros H. split.
    + rewrite E. f_equal. apply B. destruct H as [H|H]; [left|right]; intros x y z K; left; apply H; now left.
    + destruct H as [H|H]; pose proof (H _ _ _ C0); pose proof (H _ _ _ C1).
      * now apply Rmult_lt_0_compat.
      * replace (cross (last v a) a b * cross a b c) with ((- cross (last v a) a b) * (- cross a b c)) by ring.
        apply Rmult_lt_0_compat; lra.
Qed.

(** Cells with holes, with no area or that are not one cell are never convex. *)
Theorem convex_refuses : forall area,
  (forall c, (1 < length c)%nat \/ area c <= 0 -> cell_isConvex area c = Ok false) /\
  (forall cs, coll_size (cell_isEmpty RNum) cs <> 1%nat -> cells_isConvex area cs = Ok false) /\
  (forall c, cell_isEmpty RNum c = false -> cells_isConvex area [c] = cell_isConvex area c).
Proof.
  intros area. split; [|split].
  - intros c H. unfold cell_isConvex. destruct (Nat.ltb 0 (length c - 1)) eqn:L; [reflexivity|].
    apply Nat.ltb_ge in L. destruct H as [H|H]; [lia|]. rewrite (proj2 (Rleb_true (area c) 0) H). reflexivity.
  - intros cs H. unfold cells_isConvex. now rewrite (proj2 (Nat.eqb_neq _ _) H).
  - intros c H. unfold cells_isConvex, coll_size, coll_getGeometry, coll_size. cbn [forallb]. rewrite H. reflexivity.
Qed.

(** A dart with its notch at the first point of the ring. *)
Definition dart : list pt :=
  [mkPoint (N := RNum) 0 0 0; mkPoint (N := RNum) 2 (-2) 0; mkPoint (N := RNum) 0 3 0; mkPoint (N := RNum) (-2) (-2) 0].

Lemma succ_cases (l : list pt) (Q : pt -> pt -> pt -> Prop) :
  (forall i x y z, nth_error l i = Some x -> nth_error l (i + 1) = Some y -> nth_error l (i + 2) = Some z -> Q x y z) ->
  forall x y z, successive l x y z -> Q x y z.
Proof. intros H x y z S. destruct (succ_at l x y z S) as [i [_ [X [Y Z]]]]. eapply H; eauto. Qed.

Lemma dart_no_stop : no_stop (ring_of dart).
Proof.
  intros pre a b post E. unfold dart, ring_of in E; cbn [app] in E.
  destruct pre as [|? pre]; cbn [app] in E; [injection E as <- <- _; unfold dist2; cbn [px py]; lra|].
  destruct pre as [|? pre]; cbn [app] in E; [injection E as _ <- <- _; unfold dist2; cbn [px py]; lra|].
  destruct pre as [|? pre]; cbn [app] in E; [injection E as _ _ <- <- _; unfold dist2; cbn [px py]; lra|].
  destruct pre as [|? pre]; cbn [app] in E; [injection E as _ _ _ <- <- _; unfold dist2; cbn [px py]; lra|].
  destruct pre as [|? pre]; cbn [app] in E; [discriminate|]. destruct pre; discriminate.
Qed.

Lemma dart_left : forall x y z, successive (ring_of dart) x y z -> 0 < cross x y z.
Proof.
  apply succ_cases. intros i x y z X Y Z. unfold dart, ring_of in *; cbn [app] in *.
  destruct i as [|[|[|[|[|i]]]]]; cbn [Nat.add nth_error] in *; try discriminate;
    try (injection X as <-; injection Y as <-; injection Z as <-; unfold cross; cbn [px py]; lra).
  destruct i; discriminate.
Qed.

Lemma dart_area : 0 < ring_area [ring_of dart].
Proof. unfold ring_area, ring_of, dart; cbn [app shoelace px py]. rewrite Rabs_right; lra. Qed.

(** C67 as stated is false: the dart is accepted although it turns left at three
    vertices and right at the notch, its first point. *)
Theorem convex_refuted : exists v : list pt,
  0 < ring_area [ring_of v] /\ no_stop (ring_of v) /\ cell_isConvex ring_area [ring_of v] = Ok true /\
  (exists x y z, corner v x y z /\ 0 < cross x y z) /\ (exists x y z, corner v x y z /\ cross x y z < 0).
Proof.
  exists dart. split; [exact dart_area|]. split; [exact dart_no_stop|]. split.
  - destruct (convex_test ring_area (ring_of dart) dart_area) as [b [E B]]; [cbn; lia|exact dart_no_stop|].
    rewrite E. f_equal. apply B. left. intros x y z S. left. now apply dart_left.
  - split.
    + exists (mkPoint (N := RNum) 0 0 0), (mkPoint (N := RNum) 2 (-2) 0), (mkPoint (N := RNum) 0 3 0). split.
      * left. exists [], [mkPoint (N := RNum) (-2) (-2) 0; mkPoint (N := RNum) 0 0 0]. reflexivity.
      * unfold cross; cbn [px py]; lra.
    + exists (mkPoint (N := RNum) (-2) (-2) 0), (mkPoint (N := RNum) 0 0 0), (mkPoint (N := RNum) 2 (-2) 0). split.
      * right. eexists. split; reflexivity.
      * unfold cross; cbn [px py]; lra.
Qed.

(** A point in the middle of an edge counts as a left turn, so a clockwise square
    with such a point is rejected. *)
Definition cw_square : list pt :=
  [mkPoint (N := RNum) 0 0 0; mkPoint (N := RNum) 0 2 0; mkPoint (N := RNum) 2 2 0; mkPoint (N := RNum) 2 1 0; mkPoint (N := RNum) 2 0 0].
Lemma cw_no_stop : no_stop (ring_of cw_square).
Proof.
  intros pre a b post E. unfold cw_square, ring_of in E; cbn [app] in E.
  destruct pre as [|? pre]; cbn [app] in E; [injection E as <- <- _; unfold dist2; cbn [px py]; lra|].
  destruct pre as [|? pre]; cbn [app] in E; [injection E as _ <- <- _; unfold dist2; cbn [px py]; lra|].
  destruct pre as [|? pre]; cbn [app] in E; [injection E as _ _ <- <- _; unfold dist2; cbn [px py]; lra|].
  destruct pre as [|? pre]; cbn [app] in E; [injection E as _ _ _ <- <- _; unfold dist2; cbn [px py]; lra|].
  destruct pre as [|? pre]; cbn [app] in E; [injection E as _ _ _ _ <- <- _; unfold dist2; cbn [px py]; lra|].
  destruct pre as [|? pre]; cbn [app] in E; [discriminate|]. destruct pre; discriminate.
Qed.
Theorem convex_straight_refuted : exists v : list pt,
  0 < ring_area [ring_of v] /\ no_stop (ring_of v) /\ cell_isConvex ring_area [ring_of v] = Ok false /\
  forall x y z, corner v x y z -> cross x y z <= 0.
Proof.
  exists cw_square.
  assert (A : 0 < ring_area [ring_of cw_square]).
  { unfold ring_area, ring_of, cw_square; cbn [app shoelace px py]. rewrite Rabs_left; lra. }
  split; [exact A|]. split; [exact cw_no_stop|]. split.
  - destruct (convex_test ring_area (ring_of cw_square) A) as [b [E B]]; [cbn; lia|exact cw_no_stop|].
    rewrite E. f_equal. destruct b; auto. exfalso. destruct (proj1 B eq_refl) as [G|G].
    + assert (S : successive (ring_of cw_square) (mkPoint (N := RNum) 0 0 0) (mkPoint (N := RNum) 0 2 0) (mkPoint (N := RNum) 2 2 0)).
      { exists []. eexists. reflexivity. }
      apply G in S. unfold leftwards, cross, dot in S; cbn [px py] in S. lra.
    + assert (S : successive (ring_of cw_square) (mkPoint (N := RNum) 2 2 0) (mkPoint (N := RNum) 2 1 0) (mkPoint (N := RNum) 2 0 0)).
      { exists [mkPoint (N := RNum) 0 0 0; mkPoint (N := RNum) 0 2 0]. eexists. reflexivity. }
      apply G in S. unfold rightwards, cross, dot in S; cbn [px py] in S. lra.
  - intros x y z [S|[m [E L]]].
    + revert x y z S. apply succ_cases. intros i x y z X Y Z. unfold cw_square, ring_of in *; cbn [app] in *.
      destruct i as [|[|[|[|[|i]]]]]; cbn [Nat.add nth_error] in *; try discriminate;
        try (injection X as <-; injection Y as <-; injection Z as <-; unfold cross; cbn [px py]; lra).
      destruct i as [|[|i]]; discriminate.
    + unfold cw_square in *. injection E as <- <- _. cbn [last] in L. subst x. unfold cross; cbn [px py]; lra.
Qed.

Example convex_accepts_ex : cell_isConvex (fun _ => 1) [ring_of [mkPoint (N := RNum) 0 0 0; mkPoint (N := RNum) 1 0 0; mkPoint (N := RNum) 0 1 0]] = Ok true.
Proof.
  apply convex_accepts; try lra.
  - cbn; lia.
  - intros pre a b post E. unfold ring_of in E; cbn [app] in E.
    destruct pre as [|? pre]; cbn [app] in E; [injection E as <- <- _; unfold dist2; cbn [px py]; lra|].
    destruct pre as [|? pre]; cbn [app] in E; [injection E as _ <- <- _; unfold dist2; cbn [px py]; lra|].
    destruct pre as [|? pre]; cbn [app] in E; [injection E as _ _ <- <- _; unfold dist2; cbn [px py]; lra|].
    destruct pre as [|? pre]; cbn [app] in E; [discriminate|]. destruct pre; discriminate.
  - left. intros x y z [S|[m [E L]]].
    + revert x y z S. apply succ_cases. intros i x y z X Y Z. unfold ring_of in *; cbn [app] in *.
      destruct i as [|[|[|[|i]]]]; cbn [Nat.add nth_error] in *; try discriminate;
        try (injection X as <-; injection Y as <-; injection Z as <-; unfold cross; cbn [px py]; lra).
      destruct i; discriminate.
    + injection E as <- <- _. cbn [last] in L. subst x. unfold cross; cbn [px py]; lra.
Qed.

Example convex_with_start_ex :
  let v := [mkPoint (N := RNum) 0 0 0; mkPoint (N := RNum) 1 0 0; mkPoint (N := RNum) 0 1 0] in
  0 < (fun _ : rcell => 1) [ring_of v] /\ no_stop (ring_of v) /\ (forall x y z, corner v x y z -> cross x y z <> 0).
Proof.
  intro v. split; [lra|]. split.
  - intros pre a b post E. unfold ring_of, v in E; cbn [app] in E.
    destruct pre as [|? pre]; cbn [app] in E; [injection E as <- <- _; unfold dist2; cbn [px py]; lra|].
    destruct pre as [|? pre]; cbn [app] in E; [injection E as _ <- <- _; unfold dist2; cbn [px py]; lra|].
    destruct pre as [|? pre]; cbn [app] in E; [injection E as _ _ <- <- _; unfold dist2; cbn [px py]; lra|].
    destruct pre as [|? pre]; cbn [app] in E; [discriminate|]. destruct pre; discriminate.
  - intros x y z [C|[m [E L]]].
    + revert x y z C. apply succ_cases. intros i x y z X Y Z. unfold ring_of, v in *; cbn [app] in *.
      destruct i as [|[|[|[|i]]]]; cbn [Nat.add nth_error] in *; try discriminate;
        try (injection X as <-; injection Y as <-; injection Z as <-; unfold cross; cbn [px py]; intro; lra).
      destruct i; discriminate.
    + unfold v in *; injection E as <- <- _. cbn [last] in L. subst x. unfold cross; cbn [px py]; intro; lra.
Qed.

Example convex_refuses_ex : cell_isConvex (fun _ => 1) [ring_of dart; []] = Ok false /\ cells_isConvex (fun _ => 1) [[ring_of dart]; [ring_of dart]] = Ok false.
Proof. split; [apply convex_refuses; left; cbn; lia|apply convex_refuses; cbn; lia]. Qed.

(** *** Lines until the border (C79, C138) *)

(** The line ends at the first of the crossings closest to [p], among those farther
    away than 1e-5; it is empty when there is none. *)
Theorem line_until_border : forall (inter : list (list rpoint) -> rcell -> list (list rpoint)) c (p : pt) ang l,
  l = concat (inter [cell_createSemiLongLine c p ang] c) -> (forall r, In r l -> R_sqrt.sqrt (dist2 r p) < dbl_max) ->
  (cell_createLineUntilBorder inter c p ang = [] /\ forall r, In r l -> ~ / 100000 < R_sqrt.sqrt (dist2 r p)) \/
  (exists q, cell_createLineUntilBorder inter c p ang = [p; q] /\ first_crossing l p q).
Proof. exact until_border. Qed.

Lemma one_max : 2 < dbl_max.
Proof.
  unfold dbl_max. assert (A : 1 <= 2 - / 2 ^ 52) by lra.
  assert (B : 2 ^ 2 <= 2 ^ 1023) by (apply Rle_pow; [lra|lia]). apply Rlt_le_trans with (1 * 2 ^ 2); [lra|].
  apply Rmult_le_compat; lra.
Qed.

Example line_until_border_ex :
  let p := mkPoint (N := RNum) 0 0 0 in let q := mkPoint (N := RNum) 1 0 0 in
  cell_createLineUntilBorder (fun _ _ => [[p; q]]) [] p 0 = [p; q].
Proof.
  intros p q. assert (D : R_sqrt.sqrt (dist2 q p) = 1).
  { unfold dist2, p, q; cbn [px py]. replace ((1 - 0) * (1 - 0) + (0 - 0) * (0 - 0)) with 1 by ring. apply sqrt_1. }
  assert (D0 : R_sqrt.sqrt (dist2 p p) = 0).
  { unfold dist2, p; cbn [px py]. replace ((0 - 0) * (0 - 0) + (0 - 0) * (0 - 0)) with 0 by ring. apply sqrt_0. }
  destruct (line_until_border (fun _ _ => [[p; q]]) [] p 0 [p; q]) as [[_ Nn]|[r [E [pre [post [El [F _]]]]]]]; [reflexivity| | |].
  - pose proof one_max. intros r [<-|[<-|[]]]; [rewrite D0|rewrite D]; lra.
  - exfalso. apply (Nn q); [right; now left|]. rewrite D. lra.
  - rewrite E. destruct pre as [|x pre]; cbn [app] in El.
    + injection El as <- _. rewrite D0 in F. lra.
    + injection El as _ El. destruct pre as [|y pre]; cbn [app] in El; [now injection El as -> _|]. injection El as _ El. destruct pre; discriminate.
Qed.

(** The ray used for this is long enough: from a point of the box around the cell it
    goes at least as far as any point of the box.  The same holds for both sides of
    a straight long line. *)
Theorem ray_reaches : forall (c : rcell) (p : pt) ang x0 x1 y0 y1,
  extent px (concat c) x0 x1 -> extent py (concat c) y0 y1 -> in_box x0 x1 y0 y1 p ->
  exists q a b, cell_createSemiLongLine c p ang = [p; q] /\ cell_createStraightLongLine c p ang = [a; b] /\
    px q = px p + (x1 - x0 + (y1 - y0)) * cos ang /\ py q = py p + (x1 - x0 + (y1 - y0)) * sin ang /\
    px b = px q /\ py b = py q /\ px a + px b = 2 * px p /\ py a + py b = 2 * py p /\
    forall r, in_box x0 x1 y0 y1 r -> dist2 p r <= dist2 p q.
Proof.
  intros c p ang x0 x1 y0 y1 EX EY [[X0 X1] [Y0 Y1]].
  assert (NE : concat c <> []).
  { intros E. rewrite E in EX. destruct EX as [[r [[] _]] _]. }
  destruct (extent_unique px (concat c) _ _ _ _ (env_extent px c NE) EX) as [E1 E2].
  destruct (extent_unique py (concat c) _ _ _ _ (env_extent py c NE) EY) as [E3 E4].
  assert (L : cell_getMinSafeLength c = x1 - x0 + (y1 - y0)) by (unfold cell_getMinSafeLength; rewrite E1, E2, E3, E4; reflexivity).
  unfold cell_createSemiLongLine, cell_createStraightLongLine. rewrite L. set (m := x1 - x0 + (y1 - y0)) in *.
  do 3 eexists. split; [reflexivity|]. split; [reflexivity|]. unfold pointFromAngle, p_getPointFromAngle; cbn [px py].
  split; [reflexivity|]. split; [reflexivity|]. split; [reflexivity|]. split; [reflexivity|].
  assert (S1 : cos (PI + ang) = - cos ang) by (rewrite Rplus_comm; apply neg_cos).
  assert (S2 : sin (PI + ang) = - sin ang) by (rewrite Rplus_comm; apply neg_sin).
  rewrite S1, S2.
  assert (Q : forall x y z : R, x + y * - z + (x + y * z) = 2 * x) by (intros; ring).
  split; [apply Q|]. split; [apply Q|].
  intros r [[R0 R1] [R2 R3]]. unfold dist2; cbn [px py].
  assert (C : forall x s : R, (x - (x + m * s)) * (x - (x + m * s)) = m * m * (s * s)) by (intros; ring).
  eapply Rle_trans; [|right; symmetry; exact (f_equal2 Rplus (C (px p) (cos ang)) (C (py p) (sin ang)))].
  pose proof (sin2_cos2 ang) as SC. unfold Rsqr in SC.
  replace (m * m * (cos ang * cos ang) + m * m * (sin ang * sin ang)) with (m * m * 1) by (rewrite <- SC; ring).
  assert (Z : forall w h u v : R, - w <= u <= w -> - h <= v <= h -> u * u + v * v <= (w + h) * (w + h) * 1).
  { intros w h u v U V. assert (u * u <= w * w) by (apply Rsqr_le_abs_1; rewrite (Rabs_right w) by lra; apply Rabs_le; lra).
    assert (v * v <= h * h) by (apply Rsqr_le_abs_1; rewrite (Rabs_right h) by lra; apply Rabs_le; lra).
    assert (0 <= w * h) by (apply Rmult_le_pos; lra). lra. }
  unfold m. apply Z; (split; [apply Rminus_le; assert (T : forall a b : R, a <= b -> a - b <= 0) by (intros; lra)|]).
  - assert (T2 : forall a b x y : R, a <= y -> x <= b -> a <= x -> y <= b -> - (b - a) - (x - y) <= 0) by (intros; lra). apply T2; assumption.
  - assert (T2 : forall a b x y : R, a <= y -> x <= b -> x - y <= b - a) by (intros; lra). apply T2; assumption.
  - assert (T2 : forall a b x y : R, a <= y -> x <= b -> a <= x -> y <= b -> - (b - a) - (x - y) <= 0) by (intros; lra). apply T2; assumption.
  - assert (T2 : forall a b x y : R, a <= y -> x <= b -> x - y <= b - a) by (intros; lra). apply T2; assumption.
Qed.
Example ray_reaches_ex : exists q, cell_createSemiLongLine [[mkPoint (N := RNum) 0 0 0; mkPoint (N := RNum) 4 0 0; mkPoint (N := RNum) 4 3 0]] (mkPoint (N := RNum) 1 1 0) 0 =
  [mkPoint (N := RNum) 1 1 0; q] /\ px q = 8.
Proof.
  destruct (ray_reaches [[mkPoint (N := RNum) 0 0 0; mkPoint (N := RNum) 4 0 0; mkPoint (N := RNum) 4 3 0]] (mkPoint (N := RNum) 1 1 0) 0 0 4 0 3)
    as (q & a & b & E & _ & X & _).
  - split; [exists (mkPoint (N := RNum) 0 0 0); split; [now left|reflexivity]|].
    split; [exists (mkPoint (N := RNum) 4 0 0); split; [right; now left|reflexivity]|].
    intros p [<-|[<-|[<-|[]]]]; cbn [px]; lra.
  - split; [exists (mkPoint (N := RNum) 0 0 0); split; [now left|reflexivity]|].
    split; [exists (mkPoint (N := RNum) 4 3 0); split; [right; right; now left|reflexivity]|].
    intros p [<-|[<-|[<-|[]]]]; cbn [py]; lra.
  - split; cbn [px py]; lra.
  - exists q. split; [exact E|]. rewrite X, cos_0. cbn [px]. lra.
Qed.

(** From a point outside the box the ray can be too short to get to the cell. *)
Theorem ray_reaches_refuted : exists (c : rcell) (p : pt) ang x0 x1 y0 y1 q r,
  extent px (concat c) x0 x1 /\ extent py (concat c) y0 y1 /\ cell_createSemiLongLine c p ang = [p; q] /\
  in_box x0 x1 y0 y1 r /\ (exists t, 0 <= t /\ px r = px p + t * cos ang /\ py r = py p + t * sin ang) /\
  forall s, on_segment p q s -> ~ in_box x0 x1 y0 y1 s.
Proof.
  pose (c := [[mkPoint (N := RNum) 0 0 0; mkPoint (N := RNum) 1 1 0]]).
  assert (EX : extent px (concat c) 0 1).
  { split; [exists (mkPoint (N := RNum) 0 0 0); split; [now left|reflexivity]|].
    split; [exists (mkPoint (N := RNum) 1 1 0); split; [right; now left|reflexivity]|].
    intros q [<-|[<-|[]]]; cbn [px]; lra. }
  assert (EY : extent py (concat c) 0 1).
  { split; [exists (mkPoint (N := RNum) 0 0 0); split; [now left|reflexivity]|].
    split; [exists (mkPoint (N := RNum) 1 1 0); split; [right; now left|reflexivity]|].
    intros q [<-|[<-|[]]]; cbn [py]; lra. }
  assert (NE : concat c <> []) by discriminate.
  destruct (extent_unique px (concat c) _ _ _ _ (env_extent px c NE) EX) as [E1 E2].
  destruct (extent_unique py (concat c) _ _ _ _ (env_extent py c NE) EY) as [E3 E4].
  assert (L : cell_getMinSafeLength c = 2) by (unfold cell_getMinSafeLength; rewrite E1, E2, E3, E4; ring).
  exists c, (mkPoint (N := RNum) (-5) 0 0), 0, 0, 1, 0, 1. eexists. exists (mkPoint (N := RNum) 0 0 0).
  split; [exact EX|]. split; [exact EY|]. split; [unfold cell_createSemiLongLine; rewrite L; reflexivity|].
  split; [split; cbn [px py]; lra|]. split.
  - exists 5. rewrite cos_0, sin_0. cbn [px py]. lra.
  - intros s [t [T [Sx _]]] [[B _] _]. unfold pointFromAngle, p_getPointFromAngle in Sx; cbn [px] in Sx.
    change (nadd RNum) with Rplus in Sx. change (nmul RNum) with Rmult in Sx. rewrite cos_0 in Sx.
    assert (Q : forall x t : R, 0 <= t <= 1 -> x = -5 + t * (-5 + 2 * 1 - -5) -> 0 <= x -> False) by (intros; lra). exact (Q _ _ T Sx B).
Qed.

(** The cell at a point is the first one that the point touches or lies in; the line
    until the border of a set of cells is that of this cell. *)
Theorem cell_at_point : forall touches inside (c : list rcell) (p : pt), Container_Spec.proper_cells c ->
  (exists pre x post, c = pre ++ x :: post /\ touches p x || inside p x = true /\
     (forall y, In y pre -> touches p y || inside p y = false) /\ getCellWherePoint touches inside c p = x) \/
  ((forall y, In y c -> touches p y || inside p y = false) /\ getCellWherePoint touches inside c p = []).
Proof.
  intros touches inside c p P. unfold getCellWherePoint. rewrite firstn_coll.
  replace (if forallb (cell_isEmpty RNum) c then [] else c) with c.
  - induction c as [|x c IH]; [right; split; [intros y []|reflexivity]|]. cbn [find].
    destruct (touches p x || inside p x) eqn:T.
    + left. exists [], x, c. repeat split; auto. intros y [].
    + clear P. assert (G : forall c : list rcell, 
        (exists pre x post, c = pre ++ x :: post /\ touches p x || inside p x = true /\ (forall y, In y pre -> touches p y || inside p y = false) /\
           match find (fun x => touches p x || inside p x) c with Some x => x | None => [] end = x) \/
        ((forall y, In y c -> touches p y || inside p y = false) /\ match find (fun x => touches p x || inside p x) c with Some x => x | None => [] end = [])).
      { clear. induction c as [|x c IH]; [right; split; [intros y []|reflexivity]|]. cbn [find].
        destruct (touches p x || inside p x) eqn:T.
        - left. exists [], x, c. repeat split; auto. intros y [].
        - destruct IH as [[pre [z [post [E [Tz [N F]]]]]]|[N F]].
          + left. exists (x :: pre), z, post. rewrite E. repeat split; auto; [|now rewrite <- E]. intros y [<-|Y]; auto.
          + right; split; auto. intros y [<-|Y]; auto. }
      destruct (G c) as [[pre [z [post [E [Tz [N F]]]]]]|[N F]].
      * left. exists (x :: pre), z, post. rewrite E. repeat split; auto; [|now rewrite <- E]. intros y [<-|Y]; auto.
      * right; split; auto. intros y [<-|Y]; auto.
  - destruct P as [->|[y [r [Y [R_ X]]]]]; [reflexivity|]. destruct (forallb (cell_isEmpty RNum) c) eqn:E; auto.
    exfalso. rewrite forallb_forall in E. apply E in Y. unfold cell_isEmpty in Y. rewrite forallb_forall in Y. apply Y in R_.
    destruct r; [now apply X|discriminate].
Qed.

Example cell_at_point_ex : getCellWherePoint (fun _ _ => false) (fun _ x => Nat.eqb (length x) 2)
  [[[mkPoint (N := RNum) 0 0 0]]; [[]; []]] (mkPoint (N := RNum) 0 0 0) = [[]; []].
Proof. reflexivity. Qed.

Print Assumptions convex_test.
Print Assumptions convex_accepts.
Print Assumptions convex_with_start.
Print Assumptions convex_refuses.
Print Assumptions convex_refuted.
Print Assumptions convex_straight_refuted.
Print Assumptions line_until_border.
Print Assumptions ray_reaches.
Print Assumptions ray_reaches_refuted.
Print Assumptions cell_at_point.
