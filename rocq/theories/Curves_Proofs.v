(** Proofs about the turn planners. *)
From Coq Require Import List Arith ZArith Bool Reals Lia Lra.
From Verif Require Import Outcome Num ListAux Point_Model Angle_Model Angle_Spec Angle_Proofs Angle_Proofs2 Angle_Props
  Path_Model Path_Spec Path_Proofs Path_Proofs2 Path_Props Objective_Spec SwathGen_Proofs2 Robot_Model Turning_Model Turning_Spec Turning_Proofs Turning_Props
  Curves_Model Curves_Spec.
Import ListNotations.
Open Scope R_scope.

Lemma sin_abs x : Rabs (sin x) <= Rabs x.
Proof.
  assert (P : forall y, 0 < y -> Rabs (sin y) <= y).
  { intros y Hy. apply Rabs_le. split; [|apply Rlt_le, sin_lt_x; auto].
    destruct (Rle_lt_dec y PI) as [L|L].
    - pose proof (sin_ge_0 y ltac:(lra) L). lra.
    - pose proof (SIN_bound y). pose proof PI2_1. lra. }
  destruct (Rtotal_order x 0) as [H|[->|H]].
  - replace (Rabs (sin x)) with (Rabs (sin (- x))) by (rewrite sin_neg, Rabs_Ropp; auto). rewrite (Rabs_left x) by lra. apply P. lra.
  - rewrite sin_0. lra.
  - rewrite (Rabs_right x) by lra. auto.
Qed.

(** A chord of length [l] seen from a heading that is [phi] off. *)
Lemma chord_dev u l a phi x y x' y' : u * u = 1 -> 0 <= l ->
  x' - x = u * l * cos (a + phi) - u * l * cos a -> y' - y = u * l * sin (a + phi) - u * l * sin a ->
  R_sqrt.sqrt ((x - x') * (x - x') + (y - y') * (y - y')) <= l * Rabs phi.
Proof.
  intros U L X Y. pose proof (Rabs_pos phi) as A.
  apply Rsqr_incr_0_var; [|apply Rmult_le_pos; auto]. rewrite Rsqr_sqrt by (pose proof (Rle_0_sqr (x - x')); pose proof (Rle_0_sqr (y - y')); unfold Rsqr in *; lra).
  replace ((x - x') * (x - x') + (y - y') * (y - y')) with ((x' - x) * (x' - x) + (y' - y) * (y' - y)) by ring. rewrite X, Y.
  replace a with (a + phi / 2 - phi / 2) at 2 4 6 8 by field. replace (a + phi) with (a + phi / 2 + phi / 2) by field.
  set (m := a + phi / 2). set (h := phi / 2).
  rewrite !cos_plus, !cos_minus, !sin_plus, !sin_minus. 
  replace ((u * l * (cos m * cos h - sin m * sin h) - u * l * (cos m * cos h + sin m * sin h)) *
     (u * l * (cos m * cos h - sin m * sin h) - u * l * (cos m * cos h + sin m * sin h)) +
     (u * l * (sin m * cos h + cos m * sin h) - u * l * (sin m * cos h - cos m * sin h)) *
     (u * l * (sin m * cos h + cos m * sin h) - u * l * (sin m * cos h - cos m * sin h)))
   with ((u * u) * (l * l) * (4 * (sin h * sin h) * (sin m * sin m + cos m * cos m))) by ring.
  pose proof (sin2_cos2 m) as SC. unfold Rsqr in SC. rewrite U, SC.
  pose proof (sin_abs h) as S. assert (S2 : sin h * sin h <= h * h). { apply Rsqr_le_abs_1 in S. exact S. }
  unfold Rsqr. replace (l * Rabs phi * (l * Rabs phi)) with (l * l * (Rabs phi * Rabs phi)) by ring.
  replace (Rabs phi * Rabs phi) with (phi * phi). 2: { rewrite <- Rabs_mult. symmetry. apply Rabs_right. apply Rle_ge, Rle_0_sqr. }
  replace (1 * (l * l) * (4 * (sin h * sin h) * 1)) with (l * l * (4 * (sin h * sin h))) by ring.
  apply Rmult_le_compat_l; [apply Rle_0_sqr|]. replace (phi * phi) with (4 * (h * h)) by (unfold h; field). lra.
Qed.

(** A step along the curve. *)
Definition step (k disc : R) (s t : rstate) : Prop := exists l phi psi, 0 <= l <= disc /\ Rabs phi <= k * disc /\ Rabs psi <= k * disc /\
  px (ps_point t) = px (ps_point s) + IZR (ps_dir s) * l * cos (ps_angle s + phi) /\
  py (ps_point t) = py (ps_point s) + IZR (ps_dir s) * l * sin (ps_angle s + phi) /\
  congruent (ps_angle t) (ps_angle s + psi).

Lemma step_dist (x y x' y' u l a : R) : u * u = 1 -> 0 <= l -> x' = x + u * l * cos a -> y' = y + u * l * sin a ->
  R_sqrt.sqrt ((x - x') * (x - x') + (y - y') * (y - y')) = l.
Proof.
  intros U L -> ->. replace ((x - (x + u * l * cos a)) * (x - (x + u * l * cos a)) + (y - (y + u * l * sin a)) * (y - (y + u * l * sin a)))
    with ((u * u) * (l * l) * (sin a * sin a + cos a * cos a)) by ring.
  pose proof (sin2_cos2 a) as SC. unfold Rsqr in SC. rewrite U, SC. replace (1 * (l * l) * 1) with (l * l) by ring. apply sqrt_square. auto.
Qed.

Lemma step_follows k k' disc s t : 0 <= disc -> k <= k' -> (ps_dir s = 1%Z \/ ps_dir s = (-1)%Z) ->
  ps_len s = R_sqrt.sqrt (dist2 (ps_point s) (ps_point t)) -> step k disc s t -> follows k' disc s t.
Proof.
  intros Hd Hk D L (l & phi & psi & Hl & Hphi & Hpsi & X & Y & A).
  assert (U : IZR (ps_dir s) * IZR (ps_dir s) = 1) by (destruct D as [-> | ->]; simpl; lra).
  assert (KK : k * disc <= k' * disc) by (apply Rmult_le_compat_r; auto).
  assert (Ll : ps_len s = l). { rewrite L. unfold dist2. apply (step_dist _ _ _ _ (IZR (ps_dir s)) l (ps_angle s + phi)); auto; lra. }
  repeat split.
  - rewrite Ll. lra.
  - rewrite Ll. lra.
  - exact L.
  - exists psi. split; [lra|exact A].
  - intros x [Lx Ly]. rewrite Ll in Lx, Ly. unfold dist2.
    eapply Rle_trans; [apply (chord_dev (IZR (ps_dir s)) l (ps_angle s) phi); auto; try lra; rewrite ?X, ?Y, ?Lx, ?Ly; ring|].
    apply (Rle_trans _ (l * (k * disc))); [apply Rmult_le_compat_l; lra|]. rewrite (Rmult_comm l). 
    assert (0 <= k * disc) by (pose proof (Rabs_pos phi); lra).
    apply (Rle_trans _ (k * disc * disc)); [apply Rmult_le_compat_l; lra|]. apply Rmult_le_compat_r; lra.
Qed.

(** The planner's answer is a converted curve of its state space within the limits. *)
Lemma simple_curve pl (rb : robot RNum) disc d sa ea : 0 <= rb_max_icc rb -> 0 <= rb_diff_curv rb ->
  exists k sg, limits pl rb k sg /\ k <= rb_max_icc rb /\
    createSimpleTurn pl rb disc d sa ea =
    steerStatesToPath (curve_of pl k sg disc (mkEnd 0 0 sa 0 0) (mkEnd d 0 ea 0 0)) (rb_getTurnVel RNum rb).
Proof.
  intros Hk Hs. destruct pl as [lib|ctl lib|lib|lib]; cbn [limits curve_of createSimpleTurn];
    try (exists (rb_max_icc rb), (rb_diff_curv rb); split; [auto|]; split; [change (carrier RNum) with R in *; lra|reflexivity]).
  unfold dubins_cc_simple.
  destruct (retry_bounded (fun k s d0 => ctl k s d0 true (simple_start sa) (simple_end d ea)) (fun k s d0 => lib k s d0 true (simple_start sa) (simple_end d ea))
     true rb disc 22 (Nat.le_refl _) Hk Hs) as (n & k & sg & _ & _ & (K & Sg) & _ & _ & ->).
  exists k, sg. split; [auto|]. split; [lra|]. unfold simple_start, simple_end.
  destruct (steerStatesToPath _ _); reflexivity.
Qed.

(** The conversion of a sampled curve. *)
Lemma steer_sampled fwd k disc from to curve v : sampled fwd k disc from to curve ->
  exists s mid e, steerStatesToPath curve v = Ok (s :: mid ++ [e]) /\
    at_xy (ps_point s) (fst from) /\ congruent (ps_angle s) (snd from) /\ at_xy (ps_point e) (fst to) /\ congruent (ps_angle e) (snd to) /\
    turn_states fwd v (s :: mid ++ [e]) /\
    (forall i a b, nth_error (s :: mid ++ [e]) i = Some a -> nth_error (s :: mid ++ [e]) (S i) = Some b ->
       step k disc a b /\ ps_len a = R_sqrt.sqrt (dist2 (ps_point a) (ps_point b))) /\
    ps_len e = 0.
Proof.
  intros ((cs & cm & ce & Ec & Fx & Fa & Tx & Ta) & D & St). destruct (steer_to_path curve v) as [A B].
  destruct B as [r Hr]. { intros c Hc. destruct (D c Hc) as [-> | [_ ->]]; unfold Rabs; destruct Rcase_abs; lra. }
  destruct (A r Hr) as [L N]. clear A.
  assert (L2 : (2 <= length r)%nat). { rewrite L, Ec. simpl. rewrite app_length. simpl. lia. }
  destruct r as [|s r]; [simpl in L2; lia|]. destruct (exists_last (l := r)) as (mid & e & Er). { intros ->. simpl in L2. lia. } subst r.
  exists s, mid, e. split; [exact Hr|].
  destruct (N 0%nat s eq_refl) as (c0 & Hc0 & P0 & A0 & _). rewrite Ec in Hc0. injection Hc0 as <-.
  assert (Ls : length mid = length cm). { rewrite Ec in L. simpl in L. rewrite !app_length in L. simpl in L. lia. }
  assert (He : nth_error (s :: mid ++ [e]) (S (length mid)) = Some e). { simpl. rewrite nth_error_app2, Nat.sub_diag by lia. reflexivity. }
  destruct (N _ e He) as (c1 & Hc1 & P1 & A1 & _ & _ & _ & _ & _ & Le).
  assert (c1 = ce). { rewrite Ec in Hc1. simpl in Hc1. rewrite Ls, nth_error_app2, Nat.sub_diag in Hc1 by lia. injection Hc1 as <-. reflexivity. } subst c1.
  split. { rewrite P0. destruct from as [[fx fy] fa]. cbn [fst] in *. injection Fx as <- <-. split; reflexivity. }
  split; [rewrite A0; exact Fa|].
  split. { rewrite P1. destruct to as [[tx ty] ta]. cbn [fst] in *. injection Tx as <- <-. split; reflexivity. }
  split; [rewrite A1; exact Ta|].
  assert (DR : forall i a c, nth_error (s :: mid ++ [e]) i = Some a -> nth_error curve i = Some c -> 
     (ps_dir a = 1%Z /\ st_d c = 1) \/ (fwd = false /\ ps_dir a = (-1)%Z /\ st_d c = -1)).
  { intros i a c Ha Hc. destruct (N _ a Ha) as (c' & Hc' & _ & _ & _ & _ & D1 & D2 & _). rewrite Hc in Hc'. injection Hc' as <-.
    destruct (D c (nth_error_In _ _ Hc)) as [E|[F E]]; auto. }
  split.
  { intros a Ha. apply In_nth_error in Ha. destruct Ha as [i Ha]. destruct (N _ a Ha) as (c & Hc & _ & _ & T & V & _).
    split; [exact T|]. split; [exact V|]. destruct (DR _ _ _ Ha Hc) as [[E _]|[F [E _]]]; auto. }
  split.
  { intros i a b Ha Hb. destruct (N _ a Ha) as (c & Hc & Pa & Aa & _ & _ & _ & _ & La & _). destruct (N _ b Hb) as (c' & Hc' & Pb & Ab & _).
    split.
    - destruct (St i c c' Hc Hc') as (l & phi & psi & Hl & Hphi & Hpsi & X & Y & G). exists l, phi, psi. rewrite Pa, Pb, Aa, Ab. cbn [px py].
      assert (E : IZR (ps_dir a) = st_d c). { destruct (DR _ _ _ Ha Hc) as [[-> ->]|[_ [-> ->]]]; simpl; lra. }
      rewrite E. split; [exact Hl|]. auto 7.
    - rewrite (La c' Hc'), Pa, Pb. reflexivity. }
  apply Le. rewrite Ec. simpl. rewrite app_length. simpl. lia.
Qed.

(** The states of a turn after the motion: same steps, same lengths. *)
Definition put (p : pt) (rot sg : R) (s s' : rstate) : Prop :=
  at_xy (ps_point s') (placing p rot sg (ps_point s)) /\ congruent (ps_angle s') (rot + sg * ps_angle s) /\ same_drive s' s.

Lemma put_step p rot sg k disc s t s' t' : (sg = 1 \/ sg = -1) -> put p rot sg s s' -> put p rot sg t t' ->
  step k disc s t -> step k disc s' t'.
Proof.
  intros Hsg ([X Y] & A & (_ & D & _)) ([X' Y'] & A' & _) (l & phi & psi & Hl & Hphi & Hpsi & Sx & Sy & Sa).
  assert (AB : Rabs (sg * phi) = Rabs phi /\ Rabs (sg * psi) = Rabs psi).
  { destruct Hsg as [-> | ->]; rewrite ?Rmult_1_l; auto. replace (-1 * phi) with (- phi) by ring. replace (-1 * psi) with (- psi) by ring. rewrite !Rabs_Ropp. auto. }
  assert (TR : cos (ps_angle s' + sg * phi) = cos (ps_angle s + phi) * cos rot - sg * sin (ps_angle s + phi) * sin rot /\
               sin (ps_angle s' + sg * phi) = cos (ps_angle s + phi) * sin rot + sg * sin (ps_angle s + phi) * cos rot).
  { destruct A as [z ->]. replace (rot + sg * ps_angle s + IZR z * (2 * PI) + sg * phi) with (rot + sg * (ps_angle s + phi) + 2 * IZR z * PI) by ring.
    set (w := ps_angle s + phi).
    assert (CP : cos (rot + sg * w + 2 * IZR z * PI) = cos (rot + sg * w) /\ sin (rot + sg * w + 2 * IZR z * PI) = sin (rot + sg * w)).
    { split; [|]; first [apply cos_congruent|apply sin_congruent]; exists z; ring. }
    destruct CP as [-> ->]. destruct Hsg as [-> | ->].
    - rewrite Rmult_1_l, cos_plus, sin_plus. split; ring.
    - replace (-1 * w) with (- w) by ring. rewrite cos_plus, sin_plus, cos_neg, sin_neg. split; ring. }
  destruct TR as [T1 T2].
  exists l, (sg * phi), (sg * psi). destruct AB as [-> ->]. split; [exact Hl|]. split; [exact Hphi|]. split; [exact Hpsi|].
  unfold placing in *. cbn [fst snd] in *. rewrite X, Y, X', Y', D, T1, T2, Sx, Sy.
  split; [refine (_ : @eq R _ _); ring|]. split; [refine (_ : @eq R _ _); ring|].
  destruct A as [z ->]. destruct A' as [z' ->]. destruct Sa as [w ->].
  destruct Hsg as [-> | ->].
  - exists (z' + w - z)%Z. rewrite minus_IZR, plus_IZR. ring.
  - exists (z' - w - z)%Z. rewrite !minus_IZR. ring.
Qed.

Lemma put_dist p rot sg s t s' t' : (sg = 1 \/ sg = -1) -> put p rot sg s s' -> put p rot sg t t' ->
  dist2 (ps_point s') (ps_point t') = dist2 (ps_point s) (ps_point t).
Proof.
  intros Hsg ([X Y] & _) ([X' Y'] & _). pose proof (placing_isometry p rot sg Hsg (ps_point s) (ps_point t)) as I.
  unfold dist2 at 1. rewrite X, Y, X', Y'. exact I.
Qed.
