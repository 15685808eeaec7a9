(** Proofs about points: polar coordinates, rotation, closest points, lines. *)
From Coq Require Import List Arith ZArith Lia Bool Reals Lra Psatz.
From Verif Require Import Outcome ListAux Num Point_Model Angle_Model Angle_Spec Angle_Proofs.
Import ListNotations.
Open Scope R_scope.

(** sin and cos along full turns. *)
Lemma cos_congruent a b : congruent a b -> cos a = cos b.
Proof.
  intros [k ->]. destruct (Z_le_gt_dec 0 k) as [Hk|Hk].
  - rewrite <- (Z2Nat.id k) by auto. rewrite <- INR_IZR_INZ.
    replace (b + INR (Z.to_nat k) * (2 * PI)) with (b + 2 * INR (Z.to_nat k) * PI) by lra. apply cos_period.
  - rewrite <- (cos_period (b + IZR k * (2 * PI)) (Z.to_nat (- k))). f_equal.
    rewrite INR_IZR_INZ, Z2Nat.id by lia. rewrite opp_IZR. lra.
Qed.

Lemma sin_congruent a b : congruent a b -> sin a = sin b.
Proof.
  intros [k ->]. destruct (Z_le_gt_dec 0 k) as [Hk|Hk].
  - rewrite <- (Z2Nat.id k) by auto. rewrite <- INR_IZR_INZ.
    replace (b + INR (Z.to_nat k) * (2 * PI)) with (b + 2 * INR (Z.to_nat k) * PI) by lra. apply sin_period.
  - rewrite <- (sin_period (b + IZR k * (2 * PI)) (Z.to_nat (- k))). f_equal.
    rewrite INR_IZR_INZ, Z2Nat.id by lia. rewrite opp_IZR. lra.
Qed.

Definition hyp (x y : R) : R := R_sqrt.sqrt (x * x + y * y).

Lemma hyp_div x y : x <> 0 -> R_sqrt.sqrt (1 + (y / x)²) = hyp x y / Rabs x.
Proof.
  intro H. unfold hyp.
  assert (Hx : 0 < Rabs x) by (apply Rabs_pos_lt; auto).
  rewrite <- (sqrt_Rsqr (Rabs x)) at 1 by lra.
  rewrite <- sqrt_div_alt.
  - f_equal. rewrite <- Rsqr_abs. unfold Rsqr. field. auto.
  - rewrite <- Rsqr_abs. apply Rsqr_pos_lt; auto.
Qed.

Lemma hyp_pos x y : x <> 0 \/ y <> 0 -> 0 < hyp x y.
Proof. intro H. apply sqrt_lt_R0. destruct H; nra. Qed.

Lemma atan2_polar y x : hyp x y * cos (Ratan2 y x) = x /\ hyp x y * sin (Ratan2 y x) = y.
Proof.
  unfold Ratan2.
  assert (Q : forall x, x <> 0 -> hyp x y * cos (atan (y / x)) = Rabs x /\ hyp x y * sin (atan (y / x)) = y * Rabs x / x).
  { intros z Hz. rewrite cos_atan, sin_atan, hyp_div by auto.
    assert (0 < hyp z y) by (apply hyp_pos; auto). assert (0 < Rabs z) by (apply Rabs_pos_lt; auto).
    split; field; repeat split; lra. }
  destruct (Rlt_dec 0 x) as [Hx|Hx].
  - destruct (Q x) as [Q1 Q2]; [lra|]. rewrite Q1, Q2, Rabs_right by lra. split; field; lra.
  - destruct (Rlt_dec x 0) as [Hx'|Hx'].
    + destruct (Q x) as [Q1 Q2]; [lra|]. rewrite Rabs_left in Q1, Q2 by auto.
      assert (S1 : hyp x y * cos (atan (y / x)) = - x) by lra.
      assert (S2 : hyp x y * sin (atan (y / x)) = - y) by (rewrite Q2; field; lra).
      destruct (Rle_dec 0 y).
      * rewrite neg_cos, neg_sin. lra.
      * replace (cos (atan (y / x) - PI)) with (cos (atan (y / x) + PI)).
        2: { apply cos_congruent. exists 1%Z. simpl. lra. }
        replace (sin (atan (y / x) - PI)) with (sin (atan (y / x) + PI)).
        2: { apply sin_congruent. exists 1%Z. simpl. lra. }
        rewrite neg_cos, neg_sin. lra.
    + assert (x = 0) by lra. subst x. unfold hyp.
      destruct (Rlt_dec 0 y).
      * rewrite cos_PI2, sin_PI2. replace (0 * 0 + y * y) with (y * y) by lra. rewrite sqrt_square by lra. lra.
      * destruct (Rlt_dec y 0).
        -- rewrite cos_neg, sin_neg, cos_PI2, sin_PI2. replace (0 * 0 + y * y) with ((- y) * (- y)) by lra.
           rewrite sqrt_square by lra. lra.
        -- assert (y = 0) by lra. subst y. replace (0 * 0 + 0 * 0) with 0 by lra. rewrite sqrt_0. lra.
Qed.

Lemma angleFromPoint_eq (p : rpoint) : angleFromPoint p = mod_2pi (Ratan2 (py p) (px p)).
Proof.
  unfold angleFromPoint, angleFromPoints, p_det, p_dot. simpl. f_equal. f_equal; lra.
Qed.

Lemma angle_polar (p : rpoint) : hyp (px p) (py p) * cos (angleFromPoint p) = px p /\
  hyp (px p) (py p) * sin (angleFromPoint p) = py p.
Proof.
  rewrite angleFromPoint_eq.
  rewrite (cos_congruent _ _ (mod2_congr _)), (sin_congruent _ _ (mod2_congr _)). apply atan2_polar.
Qed.

Lemma cos_eq_1 x : cos x = 1 -> congruent x 0.
Proof.
  intro H. destruct (mod2_congr x) as [k E]. pose proof (mod2_range x) as HM.
  rewrite <- (cos_congruent _ _ (mod2_congr x)) in H.
  assert (M : mod_2pi x = 0).
  { assert (S : (sin (mod_2pi x / 2))² = 0).
    { replace (mod_2pi x) with (2 * (mod_2pi x / 2)) in H by lra. rewrite cos_2a_sin in H. unfold Rsqr. lra. }
    apply Rsqr_0_uniq in S.
    destruct (Rle_lt_or_eq_dec 0 (mod_2pi x) (proj1 HM)) as [Hp|Hz]; [|auto].
    assert (0 < sin (mod_2pi x / 2)) by (apply sin_gt_0; lra). lra. }
  rewrite M in E. exists (- k)%Z. rewrite opp_IZR. lra.
Qed.

(** An angle is determined up to turns by its sine and cosine. *)
Lemma angle_unique a b : cos a = cos b -> sin a = sin b -> congruent a b.
Proof.
  intros HC HS. assert (C : cos (a - b) = 1).
  { rewrite cos_minus, HC, HS. pose proof (sin2_cos2 b). unfold Rsqr in H. lra. }
  destruct (cos_eq_1 _ C) as [k E]. exists k. lra.
Qed.

(** Rotation. *)
Section Rot.
  Variables (c : rpoint) (p : rpoint).
  Lemma rotate_xy a : px (rotateFromPoint c a p) = px c + (px p - px c) * cos a - (py p - py c) * sin a /\
    py (rotateFromPoint c a p) = py c + (px p - px c) * sin a + (py p - py c) * cos a.
  Proof. unfold rotateFromPoint, p_rotateFromPoint. simpl. split; lra. Qed.
End Rot.

(** Closest point of a segment. *)
Lemma std_min_R a b : std_min RNum a b = Rmin a b.
Proof.
  unfold std_min. simpl. unfold Rmin. destruct (Rltb b a) eqn:E.
  - apply Rltb_true in E. destruct (Rle_dec a b); lra.
  - apply Rltb_false in E. destruct (Rle_dec a b); lra.
Qed.
Lemma std_max_R a b : std_max RNum a b = Rmax a b.
Proof.
  unfold std_max. simpl. unfold Rmax. destruct (Rltb a b) eqn:E.
  - apply Rltb_true in E. destruct (Rle_dec a b); lra.
  - apply Rltb_false in E. destruct (Rle_dec a b); lra.
Qed.

Definition clamp (t : R) : R := Rmax 0 (Rmin 1 t).
Lemma clamp_range t : 0 <= clamp t <= 1.
Proof.
  unfold clamp. split; [apply Rmax_l|]. unfold Rmax. destruct (Rle_dec 0 (Rmin 1 t)); [apply Rmin_l|lra].
Qed.

(** The clamped parameter minimises A t^2 - 2 B t over [0,1], A > 0. *)
Lemma clamp_min A B s : 0 < A -> 0 <= s <= 1 ->
  A * clamp (B / A) * clamp (B / A) - 2 * B * clamp (B / A) <= A * s * s - 2 * B * s.
Proof.
  intros HA Hs. set (t := B / A). assert (E : B = A * t) by (unfold t; field; lra). rewrite E. clear E.
  unfold clamp. unfold Rmin. destruct (Rle_dec 1 t).
  - rewrite Rmax_right by lra. assert (0 <= A * ((1 - s) * ((t - 1) + (t - s)))) by (repeat apply Rmult_le_pos; lra). nra.
  - unfold Rmax. destruct (Rle_dec 0 t).
    + assert (0 <= A * ((s - t) * (s - t))) by (apply Rmult_le_pos; [lra|apply Rle_0_sqr]). nra.
    + assert (0 <= A * (s * (s - 2 * t))) by (repeat apply Rmult_le_pos; lra). nra.
Qed.

Lemma sq3_nonneg (x y z : R) : 0 <= x * x + y * y + z * z.
Proof. pose proof (Rle_0_sqr x); pose proof (Rle_0_sqr y); pose proof (Rle_0_sqr z). unfold Rsqr in *. lra. Qed.
Lemma sq3_zero (x y z : R) : 0 = x * x + y * y + z * z -> x = 0 /\ y = 0 /\ z = 0.
Proof.
  intro H. pose proof (Rle_0_sqr x); pose proof (Rle_0_sqr y); pose proof (Rle_0_sqr z).
  repeat split; apply Rsqr_0_uniq; unfold Rsqr in *; lra.
Qed.

Section Closest.
  Variables (p a b : rpoint).
  Let q := p_closestPointInSegment RNum p a b.
  Let A := p_dot RNum (p_sub RNum b a) (p_sub RNum b a).
  Let B := - p_dot RNum (p_sub RNum b a) (p_sub RNum a p).

  Lemma closest_param : px q = px a + clamp (B / A) * (px b - px a) /\
    py q = py a + clamp (B / A) * (py b - py a) /\ pz q = pz a + clamp (B / A) * (pz b - pz a).
  Proof.
    unfold q, p_closestPointInSegment. rewrite std_min_R, std_max_R. simpl.
    fold A. change (- p_dot RNum (p_sub RNum b a) (p_sub RNum a p)) with B.
    unfold clamp. unfold A, B. simpl. repeat split; ring.
  Qed.

  Lemma closest_on : on_segment a b q.
  Proof. exists (clamp (B / A)). split; [apply clamp_range|apply closest_param]. Qed.

  Lemma closest_min3 r : on_segment a b r -> dist3 q p <= dist3 r p.
  Proof.
    intros (s & Hs & X & Y & Z). destruct closest_param as (X' & Y' & Z').
    assert (HA0 : 0 <= A) by apply sq3_nonneg.
    destruct (Rle_lt_or_eq_dec 0 A HA0) as [HA|HA].
    - pose proof (clamp_min A B s HA Hs) as H. set (t := clamp (B / A)) in *.
      unfold dist3, dist2. rewrite X, Y, Z, X', Y', Z'. unfold A, B, p_dot, p_sub in H. simpl in H. nra.
    - assert (H3 : px b = px a /\ py b = py a /\ pz b = pz a).
      { unfold A, p_dot, p_sub in HA. simpl in HA. apply sq3_zero in HA. repeat split; lra. }
      destruct H3 as (E1 & E2 & E3). unfold dist3, dist2. rewrite X, Y, Z, X', Y', Z', E1, E2, E3. nra.
  Qed.

  (** On a level segment it is also the closest in the plane. *)
  Lemma closest_min2 r : pz a = pz b -> on_segment a b r -> dist2 q p <= dist2 r p.
  Proof.
    intros HZ Hr. pose proof (closest_min3 r Hr) as H. destruct Hr as (s & Hs & X & Y & Z).
    destruct closest_param as (X' & Y' & Z'). unfold dist3 in H. rewrite Z, Z', HZ in H. nra.
  Qed.
End Closest.

(** min_element. *)
Lemma min_from_ok l : forall best ib i, exists x,
  (min_from best ib i l = ib /\ x = best \/ (exists k, nth_error l k = Some x /\ min_from best ib i l = (i + k)%nat)) /\
  x <= best /\ forall y, In y l -> x <= y.
Proof.
  induction l as [|y l IH]; intros best ib i; simpl.
  - exists best. split; [left; auto|]. split; [lra|]. tauto.
  - destruct (Rlt_dec y best) as [H|H].
    + destruct (IH y i (S i)) as (x & Hx & L & G). exists x. split; [|split].
      * right. destruct Hx as [[-> ->]|(k & Hk & ->)].
        -- exists 0%nat. split; auto. 
        -- exists (S k). split; auto.  lia.
      * lra.
      * intros z [<-|Hz]; auto.
    + destruct (IH best ib (S i)) as (x & Hx & L & G). exists x. split; [|split].
      * destruct Hx as [[-> ->]|(k & Hk & ->)]; [left; auto|]. right. exists (S k). split; auto. lia.
      * lra.
      * intros z [<-|Hz]; auto. lra.
Qed.

Lemma min_index_ok l : l <> [] -> exists x, nth_error l (min_index l) = Some x /\ forall y, In y l -> x <= y.
Proof.
  destruct l as [|x l]; [congruence|]. intros _. unfold min_index.
  destruct (min_from_ok l x 0 1) as (m & Hm & L & G). exists m. split.
  - destruct Hm as [[-> ->]|(k & Hk & ->)]; auto.
  - intros y [<-|Hy]; auto.
Qed.

Lemma dist2_nonneg a b : 0 <= dist2 a b.
Proof. apply Rplus_le_le_0_compat; apply Rle_0_sqr. Qed.

Lemma dist_le a b p q : p_distance a b <= p_distance p q <-> dist2 a b <= dist2 p q.
Proof.
  unfold p_distance. fold (dist2 a b). fold (dist2 p q).
  pose proof (dist2_nonneg a b). pose proof (dist2_nonneg p q).
  split; intro.
  - apply sqrt_le_0; auto.
  - apply sqrt_le_1; auto.
Qed.

Lemma pick_ok p ps : ps <> [] -> exists q, pick_closest p ps = Ok q /\ In q ps /\ forall r, In r ps -> dist2 q p <= dist2 r p.
Proof.
  intro H. unfold pick_closest, vec_index.
  destruct (min_index_ok (map (fun q => p_distance q p) ps)) as (x & Hx & G). { destruct ps; [congruence|discriminate]. }
  rewrite nth_error_map in Hx. set (k := min_index (map (fun q => p_distance q p) ps)) in *.
  destruct (nth_error ps k) as [q|] eqn:E; [|discriminate]. exists q. split; auto. split; [eapply nth_error_In; eauto|].
  intros r Hr. apply dist_le. injection Hx as Hx. rewrite Hx. apply G. apply in_map_iff. eauto.
Qed.

(** Each segment of the line has its ends at the same height. *)
Fixpoint level_segments (l : list rpoint) : Prop :=
  match l with
  | a :: ((b :: _) as t) => pz a = pz b /\ level_segments t
  | _ => True
  end.

Lemma level_level l : level l -> level_segments l.
Proof.
  induction l as [|a [|b l] IH]; intro H; simpl; auto. split.
  - apply H; simpl; auto.
  - apply IH. intros p q Hp Hq. apply H; right; auto.
Qed.

Lemma candidates_on p l q : In q (closest_candidates p l) -> on_line l q.
Proof.
  induction l as [|a [|b l] IH]; simpl; try tauto. intros [<-|H].
  - left. apply closest_on.
  - right. apply IH. auto.
Qed.

Lemma candidates_min p l : level_segments l -> forall r, on_line l r -> exists q, In q (closest_candidates p l) /\ dist2 q p <= dist2 r p.
Proof.
  induction l as [|a [|b l] IH]; intros HL r Hr; try (simpl in Hr; tauto).
  destruct HL as [HZ HL]. destruct Hr as [Hr|Hr].
  - exists (p_closestPointInSegment RNum p a b). split; [left; auto|]. apply closest_min2; auto.
  - destruct (IH HL r Hr) as (q & Hq & D). exists q. split; auto. right. auto.
Qed.

Lemma closestPointTo_ok p l : (2 <= length l)%nat -> level l -> exists q, closestPointTo p l = Ok q /\ on_line l q /\
  forall r, on_line l r -> dist2 q p <= dist2 r p.
Proof.
  intros H HL. unfold closestPointTo. destruct l as [|a [|b l]]; simpl in H; try lia.
  destruct (pick_ok p (closest_candidates p (a :: b :: l))) as (q & E & Hq & M); [discriminate|].
  exists q. split; auto. split; [eapply candidates_on; eauto|].
  intros r Hr. destruct (candidates_min p _ (level_level _ HL) r Hr) as (q' & Hq' & D).
  pose proof (M q' Hq'). lra.
Qed.

(** The same for a collection of parts, given the answer on each part. *)
Lemma pick_parts {A} (f : rpoint -> A -> outcome rpoint) (on : A -> rpoint -> Prop) p (parts : list A) :
  parts <> [] ->
  (forall x, In x parts -> exists q, f p x = Ok q /\ on x q /\ forall r, on x r -> dist2 q p <= dist2 r p) ->
  exists q, (do ps <- mapM (f p) parts; pick_closest p ps) = Ok q /\
    (exists x, In x parts /\ on x q) /\ forall x r, In x parts -> on x r -> dist2 q p <= dist2 r p.
Proof.
  intros HN H.
  assert (M : exists ps, mapM (f p) parts = Ok ps /\
     Forall2 (fun x q => on x q /\ forall r, on x r -> dist2 q p <= dist2 r p) parts ps).
  { clear HN. induction parts as [|x parts IH]; [exists []; split; auto|].
    destruct (H x) as (q & E & Hq); [left; auto|]. destruct IH as (ps & E' & F); [intros; apply H; right; auto|].
    exists (q :: ps). cbn [mapM]. rewrite E. cbn [bind]. rewrite E'. cbn [bind]. split; auto. }
  destruct M as (ps & E & F). rewrite E. cbn [bind].
  destruct (pick_ok p ps) as (q & Eq & Hq & G). { destruct parts; [congruence|]. inversion F; discriminate. }
  exists q. split; auto. split.
  - clear - F Hq. induction F as [|x q' parts ps [Ho _] F IH]; [destruct Hq|]. destruct Hq as [->|Hq].
    + exists x. split; [left|]; auto.
    + destruct (IH Hq) as (y & Hy & Ho'). exists y. split; [right|]; auto.
  - intros x r Hx Hr. clear - F Hx Hr G. induction F as [|y q' parts ps [Ho Hm] F IH]; [destruct Hx|]. destruct Hx as [->|Hx].
    + pose proof (G q' (or_introl eq_refl)). pose proof (Hm r Hr). lra.
    + apply IH; auto. intros r' Hr'. apply G. right; auto.
Qed.

(** Indices of getPointAngle. *)
Lemma vec_at_ok {A} (l : list A) i : (i < length l)%nat -> exists x, vec_at l i = Ok x.
Proof. intro H. unfold vec_at. destruct (nth_error l i) eqn:E; eauto. apply nth_error_None in E. lia. Qed.

Lemma inAngle_ok l i : (0 < i < length l)%nat -> exists a, mp_getInAngle l i = Ok a.
Proof.
  intros [H1 H2]. destruct i as [|i]; [lia|]. unfold mp_getInAngle.
  destruct (vec_at_ok l (S i) H2) as [x ->]. destruct (vec_at_ok l i) as [y ->]; [lia|]. cbn [bind]. eauto.
Qed.

Lemma outAngle_ok l i : (S i < length l)%nat -> exists a, mp_getOutAngle l i = Ok a.
Proof.
  intro H. unfold mp_getOutAngle. destruct l as [|p l]; [simpl in H; lia|].
  replace (Nat.leb (length (p :: l) - 1) i) with false by (symmetry; apply Nat.leb_gt; simpl in *; lia).
  destruct (vec_at_ok (p :: l) (S i) H) as [x ->]. destruct (vec_at_ok (p :: l) i) as [y ->]; [lia|]. cbn [bind]. eauto.
Qed.

Lemma pointAngle_defined l i : (exists a, mp_getPointAngle l i = Ok a) <-> (2 <= length l /\ i < length l)%nat.
Proof.
  unfold mp_getPointAngle. destruct (Nat.ltb_spec (length l) 2) as [H|H].
  - split; [intros [a E]; discriminate|lia].
  - destruct (Nat.eqb_spec i 0) as [->|H0].
    + split; [intros _; lia|]. intros _. apply outAngle_ok. lia.
    + destruct (Nat.eqb_spec i (length l - 1)) as [->|H1].
      * split; [intros _; lia|]. intros _. apply inAngle_ok. lia.
      * split.
        -- intros [a E]. split; auto. destruct (le_lt_dec (length l) i); auto. exfalso.
           destruct i as [|i]; [lia|]. unfold mp_getInAngle in E.
           unfold vec_at in E at 1. rewrite (proj2 (nth_error_None l (S i))) in E by lia. discriminate.
        -- intros [_ Hi]. destruct (inAngle_ok l i) as [a ->]; [lia|].
           destruct (outAngle_ok l i) as [b ->]; [lia|]. cbn [bind]. eauto.
Qed.
