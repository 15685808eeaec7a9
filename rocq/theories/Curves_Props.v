(** Theorems about the four turn planners (src/fields2cover/path_planning/dubins_curves.cpp,
    dubins_curves_cc.cpp, reeds_shepp_curves.cpp, reeds_shepp_curves_hc.cpp). *)
From Coq Require Import List Arith ZArith Bool Reals Lia Lra.
From Verif Require Import Outcome Num ListAux Point_Model Angle_Model Angle_Spec Angle_Proofs Angle_Proofs2 Angle_Props
  Path_Model Path_Spec Path_Proofs Path_Proofs2 Path_Props Objective_Spec SwathGen_Proofs2 Robot_Model Turning_Model Turning_Spec Turning_Proofs Turning_Props
  Curves_Model Curves_Spec Curves_Proofs.
Import ListNotations.
Open Scope R_scope.

(** [d], [sa], [ea] is the turn from [p], [a] to [q], [b] seen from the line between them. *)
Definition seen (p : pt) (a : R) (q : pt) (b d sa ea : R) : Prop :=
  d = R_sqrt.sqrt (dist2 p q) /\ 0 <= sa <= PI /\ 0 <= ea < 2 * PI /\
  exists rot sg, (sg = 1 \/ sg = -1) /\ at_xy q (placing p rot sg (mkPoint (N := RNum) d 0 0)) /\
    congruent (rot + sg * sa) a /\ congruent (rot + sg * ea) b.

(** C236.  Every planner, if the curve its state space returns for the turn is right, makes
    a turn from [p] to [q] with the headings asked for, within the robot's limits: steps
    of at most the discretization, heading changes of at most maximum curvature times
    discretization; with the robot's turning speed, and forward for Dubins' curves. *)
Theorem planned_turn : forall pl t (rb : robot RNum) (p : pt) a (q : pt) b,
  0 <= rb_max_icc rb -> 0 <= rb_diff_curv rb -> 0 <= t_disc t ->
  (forall d sa ea k sg, seen p a q b d sa ea -> limits pl rb k sg ->
     sampled (forward_only pl) k (t_disc t) (0, 0, sa) (d, 0, ea) (curve_of pl k sg (t_disc t) (mkEnd 0 0 sa 0 0) (mkEnd d 0 ea 0 0))) ->
  (t_using t = true -> t_cache t = [] /\ forall x, In x [rb_max_icc rb : R; rb_diff_curv rb : R; R_sqrt.sqrt (dist2 p q)] -> Rabs x < 2147483) ->
  exists s mid e t', createTurn (createSimpleTurn pl) t rb p a q b = Ok (s :: mid ++ [e], t') /\
    ps_point s = p /\ congruent (ps_angle s) a /\ ps_point e = q /\ congruent (ps_angle e) b /\ ps_len e = 0 /\
    turn_states (forward_only pl) (rb_getTurnVel RNum rb) (s :: mid ++ [e]) /\
    (forall i x y, nth_error (s :: mid ++ [e]) i = Some x -> nth_error (s :: mid ++ [e]) (S i) = Some y -> follows (rb_max_icc rb) (t_disc t) x y).
Proof.
  intros pl t rb p a q b Hk Hs Hd Lib Cache.
  destruct (transformToNormalTurn p a q b) as [[[[d rot] sa] ea] inv] eqn:E.
  destruct (normal_turn _ _ _ _ _ _ _ _ _ E) as (N1 & N2 & N3 & N4 & _ & Np & Nq & Na & Nb).
  set (sg := if inv then -1 else 1) in *. assert (Hsg : sg = 1 \/ sg = -1) by (subst sg; destruct inv; auto).
  assert (SEEN : seen p a q b d sa ea). { repeat (split; [assumption|]). exists rot, sg. auto. }
  destruct (simple_curve pl rb (t_disc t) d sa ea Hk Hs) as (k & sh & HL & Hkk & HC).
  destruct (steer_sampled _ _ _ _ _ _ (rb_getTurnVel RNum rb) (Lib d sa ea k sh SEEN HL)) as (s & mid & e & HG & S1 & S2 & E1 & E2 & TS & ST & LE).
  rewrite <- HC in HG. cbn [fst snd] in *.
  destruct (create_turn_defined (createSimpleTurn pl) t rb p a q b d rot sa ea inv E) as (r & t' & HT).
  { eauto. }
  { intros U x Hx. destruct (Cache U) as [_ B]. pose proof PI_4. pose proof PI_RGT_0. cbn [In] in Hx.
    destruct Hx as [<-|[<-|[<-|[<-|[<-|[]]]]]]; [apply B; simpl; auto|apply B; simpl; auto|rewrite N1; apply B; simpl; auto| |]; apply Rabs_def1; lra. }
  destruct (create_turn _ _ _ _ _ _ _ _ _ HT) as (d0 & rot0 & sa0 & ea0 & inv0 & g & T & G & _ & C). rewrite E in T. injection T as <- <- <- <- <-.
  assert (Eg : g = s :: mid ++ [e]).
  { destruct (t_using t) eqn:U.
    - apply cached_raw in G. destruct (Cache eq_refl) as [CE _]. rewrite CE in G. destruct G as (_ & _ & [[[] _]|(_ & G & _)]). congruence.
    - destruct G. congruence. }
  destruct C as (s0 & mid0 & e0 & s1 & mid1 & e1 & s2 & e2 & Eg' & -> & F & Ks & Ke). { rewrite Eg. simpl. rewrite app_length. simpl. lia. }
  rewrite Eg in Eg'. injection Eg' as <- Eg'. apply app_inj_tail in Eg'. destruct Eg' as [<- <-]. clear Eg G g.
  fold sg in F.
  (* the ends *)
  inversion F as [|? ? ? ? Ms F']; subst. apply Forall2_app_inv_l in F'. destruct F' as (m' & l' & Fm & Fe & EQ).
  inversion Fe as [|? ? ? ? Me Fn]; subst. inversion Fn; subst. apply app_inj_tail in EQ. destruct EQ as [<- <-].
  assert (Z0 : forall x y : pt, px x = px y -> py x = py y -> R_sqrt.sqrt (dist2 x y) < 13421773 / 268435456).
  { intros x y X Y. replace (dist2 x y) with 0. { rewrite sqrt_0. lra. } unfold dist2. rewrite X, Y. refine (_ : @eq R _ _). ring. }
  assert (Ps : px (ps_point s1) = px p /\ py (ps_point s1) = py p).
  { destruct Ms as ([X Y] & _). destruct Np as [A B]. destruct S1 as [S1 S1']. cbn [fst snd] in S1, S1'. unfold placing in *. cbn [fst snd px py] in *. rewrite X, Y, S1, S1'. split; [rewrite A at 2|rewrite B at 2]; reflexivity. }
  assert (Pe : px (ps_point e1) = px q /\ py (ps_point e1) = py q).
  { destruct Me as ([X Y] & _). destruct Nq as [A B]. destruct E1 as [E1 E1']. cbn [fst snd] in E1, E1'. unfold placing in *. cbn [fst snd px py] in *. rewrite X, Y, E1, E1'. split; [rewrite A at 1|rewrite B at 1]; reflexivity. }
  destruct Ks as ((Ka & Kd & Kt & Kv) & Kl & Kp & _). destruct Ke as ((Ka' & Kd' & Kt' & Kv') & Kl' & Kp' & _).
  specialize (Kp (Z0 _ _ (proj1 Ps) (proj2 Ps))). specialize (Kp' (Z0 _ _ (proj1 Pe) (proj2 Pe))).
  destruct Ms as (Xs & _ & _ & As & (Ls & Ds & Ts & Vs)). destruct Me as (Xe & _ & _ & Ae & (Le & De & Te & Ve)).
  assert (Pus : put p rot sg s s2).
  { split. { rewrite Kp. destruct Xs as [X Y]. split; [rewrite <- X; symmetry; apply Ps|rewrite <- Y; symmetry; apply Ps]. }
    split; [rewrite Ka; exact As|]. repeat split; congruence. }
  assert (Pue : put p rot sg e e2).
  { split. { rewrite Kp'. destruct Xe as [X Y]. split; [rewrite <- X; symmetry; apply Pe|rewrite <- Y; symmetry; apply Pe]. }
    split; [rewrite Ka'; exact Ae|]. repeat split; congruence. }
  assert (PU : Forall2 (put p rot sg) (s :: mid ++ [e]) (s2 :: mid1 ++ [e2])).
  { constructor; [exact Pus|]. apply Forall2_app; [|constructor; [exact Pue|constructor]].
    clear - Fm. induction Fm as [|x y l l' M F IH]; constructor; auto. destruct M as (M1 & _ & _ & M2 & M3). split; auto. }
  assert (PN : forall i y, nth_error (s2 :: mid1 ++ [e2]) i = Some y -> exists x, nth_error (s :: mid ++ [e]) i = Some x /\ put p rot sg x y).
  { clear - PU. induction PU as [|x y l l' M F IH]; intros [|i] z Hz; try discriminate; simpl in *; [injection Hz as <-; eauto|auto]. }
  assert (TS' : turn_states (forward_only pl) (rb_getTurnVel RNum rb) (s2 :: mid1 ++ [e2])).
  { intros y Hy. apply In_nth_error in Hy. destruct Hy as [i Hy]. destruct (PN _ _ Hy) as (x & Hx & _ & _ & (_ & D & T & V)).
    destruct (TS x (nth_error_In _ _ Hx)) as (X1 & X2 & X3). rewrite D, T, V. auto. }
  exists s2, mid1, e2, t'. split; [exact HT|]. split; [exact Kp|].
  split. { rewrite Ka. eapply congruent_trans; [exact As|]. eapply congruent_trans; [|exact Na]. destruct S2 as [z ->].
    destruct Hsg as [-> | ->]; [exists z; ring|exists (- z)%Z; rewrite opp_IZR; ring]. }
  split; [exact Kp'|].
  split. { rewrite Ka'. eapply congruent_trans; [exact Ae|]. eapply congruent_trans; [|exact Nb]. destruct E2 as [z ->].
    destruct Hsg as [-> | ->]; [exists z; ring|exists (- z)%Z; rewrite opp_IZR; ring]. }
  split; [congruence|]. split; [exact TS'|].
  intros i x y Hx Hy. destruct (PN _ _ Hx) as (x0 & Hx0 & Px). destruct (PN _ _ Hy) as (y0 & Hy0 & Py).
  destruct (ST i x0 y0 Hx0 Hy0) as [St Ln]. apply (step_follows k); auto.
  - destruct (TS' x (nth_error_In _ _ Hx)) as (_ & _ & [D|[_ D]]); auto.
  - destruct Px as (Q1 & Q2 & Q3). rewrite (put_dist p rot sg x0 y0 x y Hsg (conj Q1 (conj Q2 Q3)) Py). destruct Q3 as [-> _]. exact Ln.
  - apply (put_step p rot sg k (t_disc t) x0 y0); auto.
Qed.
Print Assumptions planned_turn.

(** A half circle of radius 1, sampled every quarter. *)
Definition half_circle : R -> R -> bool -> steer_end -> steer_end -> list steer_state := fun _ _ _ _ _ =>
  [mkSteer 0 0 (PI / 2) 1; mkSteer 1 1 0 1; mkSteer 2 0 (3 * (PI / 2)) 1].

Lemma half_sampled : sampled true 1 (PI / 2) (0, 0, PI / 2) (2, 0, 3 * (PI / 2)) (half_circle 0 0 true (mkEnd 0 0 0 0 0) (mkEnd 0 0 0 0 0)).
Proof.
  pose proof PI_RGT_0 as P0. pose proof PI2_3_2 as P1.
  assert (SQ : R_sqrt.sqrt 2 * R_sqrt.sqrt 2 = 2) by (apply sqrt_def; lra). pose proof (sqrt_pos 2) as SP.
  assert (SL : R_sqrt.sqrt 2 <= 3 / 2) by nra. assert (SN : R_sqrt.sqrt 2 <> 0) by nra.
  assert (C4 : R_sqrt.sqrt 2 * cos (PI / 4) = 1) by (rewrite cos_PI4; field; auto).
  assert (S4 : R_sqrt.sqrt 2 * sin (PI / 4) = 1) by (rewrite sin_PI4; field; auto).
  assert (A4 : Rabs (- (PI / 4)) <= 1 * (PI / 2)) by (rewrite Rabs_Ropp, Rabs_right; lra).
  assert (A2 : Rabs (- (PI / 2)) <= 1 * (PI / 2)) by (rewrite Rabs_Ropp, Rabs_right; lra).
  split; [|split].
  - do 2 eexists. exists (mkSteer 2 0 (3 * (PI / 2)) 1). split; [unfold half_circle; instantiate (1 := [_]); reflexivity|].
    cbn [st_x st_y st_theta fst snd]. repeat split; try (exists 0%Z; simpl; lra).
  - intros c [<-|[<-|[<-|[]]]]; left; reflexivity.
  - intros [|[|[|i]]] c c' Hc Hc'; cbn [half_circle nth_error] in Hc, Hc'; try discriminate; injection Hc as <-; injection Hc' as <-;
      exists (R_sqrt.sqrt 2), (- (PI / 4)), (- (PI / 2)); cbn [st_x st_y st_theta st_d];
      (split; [lra|]); (split; [exact A4|]); (split; [exact A2|]).
    + replace (PI / 2 + - (PI / 4)) with (PI / 4) by field. rewrite Rmult_1_l, C4, S4. split; [lra|]. split; [lra|]. exists 0%Z. simpl. lra.
    + rewrite Rplus_0_l, cos_neg, sin_neg, Rmult_1_l, C4. split; [lra|]. split; [lra|]. exists 1%Z. simpl. lra.
Qed.

Lemma half_seen d sa ea : seen (mkPoint (N := RNum) 0 0 0) (PI / 2) (mkPoint (N := RNum) 2 0 7) (3 * (PI / 2)) d sa ea ->
  d = 2 /\ sa = PI / 2 /\ ea = 3 * (PI / 2).
Proof.
  intros (D & Hsa & Hea & rot & sg & Hsg & [Q1 Q2] & A & B). pose proof PI_RGT_0 as P0.
  assert (E2 : d = 2). { rewrite D. unfold dist2. cbn [px py]. replace ((0 - 2) * (0 - 2) + (0 - 0) * (0 - 0)) with (2 * 2) by ring. apply sqrt_square. lra. } clear D. rewrite E2 in *.
  unfold placing in Q1, Q2. cbn [px py fst snd] in Q1, Q2. change (carrier RNum) with R in *.
  assert (C : cos rot = 1) by lra. assert (S0 : sin rot = 0) by lra. clear Q1 Q2.
  pose proof (cos_congruent _ _ A) as CA. pose proof (sin_congruent _ _ A) as SA. pose proof (cos_congruent _ _ B) as CB. pose proof (sin_congruent _ _ B) as SB.
  rewrite cos_plus, C, S0 in CA, CB. rewrite sin_plus, C, S0 in SA, SB. rewrite cos_PI2 in CA. rewrite sin_PI2 in SA.
  assert (C3 : cos (3 * (PI / 2)) = 0). { replace (3 * (PI / 2)) with (PI / 2 + PI) by field. rewrite neg_cos, cos_PI2. ring. }
  assert (S3 : sin (3 * (PI / 2)) = -1). { replace (3 * (PI / 2)) with (PI / 2 + PI) by field. rewrite neg_sin, sin_PI2. ring. }
  rewrite C3 in CB. rewrite S3 in SB.
  assert (sg = 1). { destruct Hsg as [->|E]; [auto|]. exfalso. rewrite E in SA. replace (-1 * sa) with (- sa) in SA by ring. rewrite sin_neg in SA. pose proof (sin_ge_0 sa ltac:(lra) ltac:(lra)). lra. } subst sg.
  rewrite !Rmult_1_l in CA, CB, SA, SB. split; [auto|]. split.
  - destruct (Rtotal_order sa (PI / 2)) as [L|[->|L]]; [|auto|].
    + pose proof (cos_gt_0 sa ltac:(lra) ltac:(lra)). lra.
    + pose proof (cos_lt_0 sa ltac:(lra) ltac:(lra)). lra.
  - destruct (Rle_lt_dec ea PI) as [L|L]; [pose proof (sin_ge_0 ea ltac:(lra) L); lra|].
    destruct (Rtotal_order ea (3 * (PI / 2))) as [L'|[->|L']]; [|auto|].
    + pose proof (cos_lt_0 ea ltac:(lra) ltac:(lra)). lra.
    + assert (X : cos (ea - 2 * PI) = cos ea). { apply cos_congruent. exists (-1)%Z. simpl. lra. }
      pose proof (cos_gt_0 (ea - 2 * PI) ltac:(lra) ltac:(lra)). lra.
Qed.

Definition half_turner (use : bool) : turner := mkTurner [] (PI / 2) use.

Example planned_turn_example : exists s mid e t',
  createTurn (createSimpleTurn (Dubins half_circle)) (half_turner true) (robot_v 2) (mkPoint (N := RNum) 0 0 0) (PI / 2) (mkPoint (N := RNum) 2 0 7) (3 * (PI / 2)) = Ok (s :: mid ++ [e], t') /\
    ps_point e = mkPoint (N := RNum) 2 0 7 /\ congruent (ps_angle e) (3 * (PI / 2)) /\ turn_states true 2 (s :: mid ++ [e]).
Proof.
  pose proof PI_RGT_0 as P0.
  destruct (planned_turn (Dubins half_circle) (half_turner true) (robot_v 2) (mkPoint (N := RNum) 0 0 0) (PI / 2) (mkPoint (N := RNum) 2 0 7) (3 * (PI / 2)))
    as (s & mid & e & t' & H & _ & _ & H1 & H2 & _ & H3 & _); [simpl; lra|simpl; lra|simpl; lra| | |exists s, mid, e, t'; auto].
  - intros d sa ea k sg Sn [-> _]. destruct (half_seen _ _ _ Sn) as (-> & -> & ->). apply half_sampled.
  - intros _. split; [reflexivity|]. intros x Hx. unfold dist2 in Hx. cbn [px py] in Hx.
    replace ((0 - 2) * (0 - 2) + (0 - 0) * (0 - 0)) with (2 * 2) in Hx by ring. rewrite sqrt_square in Hx by lra. simpl in Hx.
    destruct Hx as [<-|[<-|[<-|[]]]]; apply Rabs_def1; lra.
Qed.

(** A straight curve serves the continuous-curvature planner. *)
Definition straight_cc : R -> R -> R -> bool -> steer_end -> steer_end -> list steer_state := fun _ _ _ _ a b =>
  [mkSteer 0 0 0 1; mkSteer (en_x b) 0 0 1].

Example planned_turn_cc_example : exists s mid e t',
  createTurn (createSimpleTurn (DubinsCC (fun _ _ _ _ _ _ => [(7, 1)]) straight_cc)) (half_turner false) (robot_v 2) (mkPoint (N := RNum) 1 1 0) 0 (mkPoint (N := RNum) 2 1 0) 0 = Ok (s :: mid ++ [e], t') /\
    ps_point s = mkPoint (N := RNum) 1 1 0 /\ ps_point e = mkPoint (N := RNum) 2 1 0 /\ turn_states true 2 (s :: mid ++ [e]).
Proof.
  pose proof PI_RGT_0 as P0. pose proof PI2_3_2 as P1.
  destruct (planned_turn (DubinsCC (fun _ _ _ _ _ _ => [(7, 1)]) straight_cc) (half_turner false) (robot_v 2) (mkPoint (N := RNum) 1 1 0) 0 (mkPoint (N := RNum) 2 1 0) 0)
    as (s & mid & e & t' & H & H0 & _ & H1 & H2 & _ & H3 & _); [simpl; lra|simpl; lra|simpl; lra| |discriminate|exists s, mid, e, t'; auto].
  intros d sa ea k sg (D & Hsa & Hea & rot & u & Hu & [Q1 Q2] & A & B) [[K _] _].
  assert (ED : d = 1). { rewrite D. unfold dist2. cbn [px py]. replace ((1 - 2) * (1 - 2) + (1 - 1) * (1 - 1)) with (1 * 1) by ring. apply sqrt_square. lra. }
  rewrite ED in *. unfold placing in Q1, Q2. cbn [px py fst snd] in Q1, Q2. change (carrier RNum) with R in *.
  assert (C : cos rot = 1) by lra. assert (S0 : sin rot = 0) by lra.
  assert (Z : forall x, congruent (rot + u * x) 0 -> cos x = 1).
  { intros x G. pose proof (cos_congruent _ _ G) as CA. rewrite cos_plus, C, S0, cos_0 in CA. destruct Hu as [-> | ->]; [replace (1 * x) with x in CA by ring; lra|].
    replace (-1 * x) with (- x) in CA by ring. rewrite cos_neg in CA. lra. }
  assert (W : forall x, 0 <= x < 2 * PI -> cos x = 1 -> x = 0).
  { intros x Hx Cx. destruct (Rle_lt_dec x 0) as [L|L]; [lra|]. exfalso. pose proof (sin2_cos2 x) as SC. unfold Rsqr in SC. rewrite Cx in SC.
    assert (SX : sin x = 0) by nra. destruct (Rtotal_order x PI) as [L'|[L'|L']].
    - pose proof (sin_gt_0 x L L'). lra.
    - rewrite L', cos_PI in Cx. lra.
    - pose proof (sin_lt_0 x L' ltac:(lra)). lra. }
  assert (Es : sa = 0) by (apply W; [lra|auto]). assert (Ee : ea = 0) by (apply W; [lra|auto]). rewrite Es, Ee.
  assert (K0 : 0 <= k * (PI / 2)). { apply Rmult_le_pos; [|lra]. cbn [rb_max_icc robot_v] in K. lra. }
  split; [|split].
  - exists (mkSteer 0 0 0 1), [], (mkSteer 1 0 0 1). cbn. repeat split; exists 0%Z; simpl; lra.
  - intros c [<-|[<-|[]]]; left; reflexivity.
  - intros [|[|i]] c c' Hc Hc'; cbn [curve_of straight_cc nth_error en_x] in Hc, Hc'; try discriminate; injection Hc as <-; injection Hc' as <-.
    exists 1, 0, 0. cbn [st_x st_y st_theta st_d half_turner t_disc]. rewrite Rabs_R0, !Rplus_0_l, cos_0, sin_0.
    split; [lra|]. split; [exact K0|]. split; [exact K0|]. split; [lra|]. split; [lra|]. exists 0%Z. simpl. lra.
Qed.

(** C237 refuted: on a curve each state leads straight on along its heading, while the next one is
    on the curve; the bound is that of planned_turn. *)
Theorem turn_contiguous_refuted : exists lib t (rb : robot RNum) (p : pt) a (q : pt) b r t',
  (forall d sa ea, seen p a q b d sa ea ->
     sampled true (rb_max_icc rb) (t_disc t) (0, 0, sa) (d, 0, ea) (lib (rb_max_icc rb) (t_disc t) true (mkEnd 0 0 sa 0 0) (mkEnd d 0 ea 0 0))) /\
  createTurn (createSimpleTurn (Dubins lib)) t rb p a q b = Ok (r, t') /\ ~ contiguous r.
Proof.
  pose proof PI_RGT_0 as P0.
  exists half_circle, (half_turner false), (robot_v 2), (mkPoint (N := RNum) 0 0 0), (PI / 2), (mkPoint (N := RNum) 2 0 7), (3 * (PI / 2)).
  assert (SA : forall d sa ea, seen (mkPoint (N := RNum) 0 0 0) (PI / 2) (mkPoint (N := RNum) 2 0 7) (3 * (PI / 2)) d sa ea ->
     sampled true 1 (PI / 2) (0, 0, sa) (d, 0, ea) (half_circle 1 (PI / 2) true (mkEnd 0 0 sa 0 0) (mkEnd d 0 ea 0 0))).
  { intros d sa ea Sn. destruct (half_seen _ _ _ Sn) as (-> & -> & ->). apply half_sampled. }
  destruct (planned_turn (Dubins half_circle) (half_turner false) (robot_v 2) (mkPoint (N := RNum) 0 0 0) (PI / 2) (mkPoint (N := RNum) 2 0 7) (3 * (PI / 2)))
    as (s & mid & e & t' & H & Ps & As & Pe & _ & _ & TS & FW); [simpl; lra|simpl; lra|simpl; lra| |discriminate|].
  { intros d sa ea k sg Sn [-> _]. apply SA, Sn. }
  exists (s :: mid ++ [e]), t'. split; [exact SA|]. split; [exact H|]. intro CT.
  destruct (create_turn _ _ _ _ _ _ _ _ _ H) as (d & rot & sa & ea & inv & g & T & [G _] & _ & C).
  unfold createSimpleTurn, dubins_simple in G.
  destruct (steer_to_path (half_circle (rb_getMaxCurv RNum (robot_v 2)) (t_disc (half_turner false)) true (simple_start sa) (simple_end d ea)) (rb_getTurnVel RNum (robot_v 2))) as [N _].
  destruct (N g G) as [L N']. cbn [half_circle length] in L.
  destruct C as (s0 & mid0 & e0 & s1 & mid1 & e1 & s2 & e2 & Eg & Er & F & _); [lia|].
  rewrite Eg in L, N'. destruct mid0 as [|m0 [|]]; simpl in L; try rewrite app_length in L; simpl in L; try lia. cbn [app] in *.
  destruct mid1 as [|m1 [|]]; try (apply Forall2_length in F; simpl in F; try rewrite app_length in F; simpl in F; lia). cbn [app] in *.
  destruct mid as [|m mid]; [discriminate|]. destruct mid as [|]; [|injection Er as _ _ Er; destruct mid; discriminate]. cbn [app] in *.
  injection Er as <- <- <-.
  assert (Lm : ps_len m = R_sqrt.sqrt 2).
  { inversion F as [|? ? ? ? _ F']; subst. inversion F' as [|? ? ? ? MM _]; subst. destruct MM as (_ & _ & _ & _ & (LM & _)). rewrite LM.
    destruct (N' 1%nat m0 eq_refl) as (c & Hc & _ & _ & _ & _ & _ & _ & Lc & _). injection Hc as <-. rewrite (Lc _ eq_refl). cbn [st_x st_y]. f_equal. lra. }
  destruct (TS s ltac:(left; reflexivity)) as (_ & _ & [Ds|[Ds _]]); [|discriminate].
  destruct (TS m ltac:(right; left; reflexivity)) as (_ & _ & [Dm|[Dm _]]); [|discriminate].
  destruct (CT 0%nat s m eq_refl eq_refl) as [X1 _]. destruct (CT 1%nat m e eq_refl eq_refl) as [X2 _].
  rewrite Ds, Ps in X1. rewrite Dm, Pe, X1, Lm in X2. cbn [px py] in X2. change (carrier RNum) with R in *.
  rewrite (cos_congruent _ _ As), cos_PI2 in X2.
  assert (SQ : R_sqrt.sqrt 2 * R_sqrt.sqrt 2 = 2) by (apply sqrt_def; lra). pose proof (sqrt_pos 2) as SP. pose proof (COS_bound (ps_angle m)). nra.
Qed.
Print Assumptions turn_contiguous_refuted.

(** C238.  createConstrainedTurn: the turn between the given places with the given headings, in the
    coordinates given (heights are dropped), within the same limits. *)
Theorem constrained_turn : forall ctl lib (rb : robot RNum) disc (p : pt) a ka (q : pt) b kb fix_loops,
  0 <= rb_max_icc rb -> 0 <= rb_diff_curv rb -> 0 <= disc ->
  (forall k sg, limits (DubinsCC ctl lib) rb k sg ->
     sampled true k disc (px p, py p, a) (px q, py q, b) (lib k sg disc true (mkEnd (px p) (py p) a ka 0) (mkEnd (px q) (py q) b kb 0))) ->
  exists s mid e, createConstrainedTurn ctl lib rb disc p a ka q b kb fix_loops = Ok (s :: mid ++ [e]) /\
    at_xy (ps_point s) (px p, py p) /\ congruent (ps_angle s) a /\ at_xy (ps_point e) (px q, py q) /\ congruent (ps_angle e) b /\ ps_len e = 0 /\
    turn_states true (rb_getTurnVel RNum rb) (s :: mid ++ [e]) /\
    (forall i x y, nth_error (s :: mid ++ [e]) i = Some x -> nth_error (s :: mid ++ [e]) (S i) = Some y -> follows (rb_max_icc rb) disc x y).
Proof.
  intros ctl lib rb disc p a ka q b kb fl Hk Hs Hd Lib. unfold createConstrainedTurn.
  destruct (retry_bounded (fun k s d0 => ctl k s d0 true (mkEnd (px p) (py p) a ka 0) (mkEnd (px q) (py q) b kb 0))
     (fun k s d0 => lib k s d0 true (mkEnd (px p) (py p) a ka 0) (mkEnd (px q) (py q) b kb 0))
     fl rb disc 22 (Nat.le_refl _) Hk Hs) as (n & k & sg & _ & _ & (K & Sg) & _ & _ & ->).
  destruct (steer_sampled _ _ _ _ _ _ (rb_getTurnVel RNum rb) (Lib k sg (conj K Sg))) as (s & mid & e & HG & S1 & S2 & E1 & E2 & TS & ST & LE).
  rewrite HG. cbn [bind snd]. exists s, mid, e. split; [reflexivity|]. repeat (split; [assumption|]).
  intros i x y Hx Hy. destruct (ST i x y Hx Hy) as [St Ln]. apply (step_follows k); auto; [lra|].
  destruct (TS x (nth_error_In _ _ Hx)) as (_ & _ & [D|[_ D]]); auto.
Qed.
Print Assumptions constrained_turn.

Example constrained_turn_example : exists s mid e,
  createConstrainedTurn (fun _ _ _ _ _ _ => [(7, 1)]) (fun k _ _ _ _ _ => [mkSteer 1 1 0 1; mkSteer 2 1 0 1]) (robot_v 2) 1
    (mkPoint (N := RNum) 1 1 5) 0 0 (mkPoint (N := RNum) 2 1 5) 0 0 true = Ok (s :: mid ++ [e]) /\ at_xy (ps_point e) (2, 1).
Proof.
  destruct (constrained_turn (fun _ _ _ _ _ _ => [(7, 1)]) (fun k _ _ _ _ _ => [mkSteer 1 1 0 1; mkSteer 2 1 0 1]) (robot_v 2) 1
    (mkPoint (N := RNum) 1 1 5) 0 0 (mkPoint (N := RNum) 2 1 5) 0 0 true) as (s & mid & e & H & _ & _ & H1 & _); [simpl; lra|simpl; lra|lra| |exists s, mid, e; auto].
  intros k sg [[K _] _]. cbn [rb_max_icc robot_v px py] in *. split; [|split].
  - exists (mkSteer 1 1 0 1), [], (mkSteer 2 1 0 1). cbn. repeat split; exists 0%Z; simpl; lra.
  - intros c [<-|[<-|[]]]; left; reflexivity.
  - intros [|[|i]] c c' Hc Hc'; cbn [nth_error] in Hc, Hc'; try discriminate; injection Hc as <-; injection Hc' as <-.
    exists 1, 0, 0. cbn [st_x st_y st_theta st_d]. rewrite Rabs_R0, !Rplus_0_l, cos_0, sin_0.
    split; [lra|]. split; [lra|]. split; [lra|]. split; [lra|]. split; [lra|]. exists 0%Z. simpl. lra.
Qed.

(** C239.  The continuous-curvature planner uses the first lowered limits, of at most 22, for which
    the curve makes no loop; or the last ones. *)
Theorem first_without_loop : forall ctl lib (rb : robot RNum) disc d sa ea,
  0 <= rb_max_icc rb -> 0 <= rb_diff_curv rb ->
  let from := mkEnd 0 0 sa 0 0 in let to := mkEnd d 0 ea 0 0 in
  exists n k sg, (n <= 21)%nat /\ lowered rb n k sg /\
    (forall j kj sj, (j < n)%nat -> lowered rb j kj sj -> loops (ctl kj sj disc true from to)) /\
    (n = 21%nat \/ ~ loops (ctl k sg disc true from to)) /\
    createSimpleTurn (DubinsCC ctl lib) rb disc d sa ea = steerStatesToPath (lib k sg disc true from to) (rb_getTurnVel RNum rb).
Proof.
  intros ctl lib rb disc d sa ea Hk Hs from to.
  destruct (retry_bounded (fun k s d0 => ctl k s d0 true from to) (fun k s d0 => lib k s d0 true from to)
     true rb disc 22 (Nat.le_refl _) Hk Hs) as (n & k & sg & N & LO & _ & B & E & C).
  exists n, k, sg. split; [exact N|]. split; [exact LO|].
  split. { intros j kj sj Hj [L1 L2]. destruct (B j kj sj Hj L1 L2) as [_ Q]. apply loop_meaning in Q. exact Q. }
  split. { destruct E as [E|[E|E]]; [auto|discriminate|]. right. intro Q. apply loop_meaning in Q. congruence. }
  cbn [createSimpleTurn]. unfold dubins_cc_simple, simple_start, simple_end. fold from to. rewrite C. destruct (steerStatesToPath _ _); reflexivity.
Qed.
Print Assumptions first_without_loop.

(** The turn with given curvatures likewise, if it is to avoid loops; otherwise it uses
    the robot's limits. *)
Theorem constrained_without_loop : forall ctl lib (rb : robot RNum) disc (p : pt) a ka (q : pt) b kb fix_loops,
  0 <= rb_max_icc rb -> 0 <= rb_diff_curv rb ->
  let from := mkEnd (px p) (py p) a ka 0 in let to := mkEnd (px q) (py q) b kb 0 in
  exists n k sg, (n <= 21)%nat /\ lowered rb n k sg /\ (fix_loops = false -> n = 0%nat) /\
    (forall j kj sj, (j < n)%nat -> lowered rb j kj sj -> loops (ctl kj sj disc true from to)) /\
    (n = 21%nat \/ fix_loops = false \/ ~ loops (ctl k sg disc true from to)) /\
    createConstrainedTurn ctl lib rb disc p a ka q b kb fix_loops = steerStatesToPath (lib k sg disc true from to) (rb_getTurnVel RNum rb).
Proof.
  intros ctl lib rb disc p a ka q b kb fl Hk Hs from to.
  destruct (retry_bounded (fun k s d0 => ctl k s d0 true from to) (fun k s d0 => lib k s d0 true from to)
     fl rb disc 22 (Nat.le_refl _) Hk Hs) as (n & k & sg & N & LO & _ & B & E & C).
  exists n, k, sg. split; [exact N|]. split; [exact LO|].
  split. { intros ->. destruct n as [|n]; [reflexivity|]. exfalso.
    assert (P : 0 < 1 + INR n / 20 /\ 0 < 1 + INR n / 5) by (pose proof (pos_INR n); lra).
    destruct (B n (rb_max_icc rb / (1 + INR n / 20)) (rb_diff_curv rb / (1 + INR n / 5)) ltac:(lia)) as [Q _]; [| |discriminate];
      field; lra. }
  split. { intros j kj sj Hj [L1 L2]. destruct (B j kj sj Hj L1 L2) as [_ Q]. apply loop_meaning in Q. exact Q. }
  split. { destruct E as [E|[E|E]]; [auto|auto|]. right. right. intro Q. apply loop_meaning in Q. congruence. }
  unfold createConstrainedTurn. fold from to. rewrite C. destruct (steerStatesToPath _ _); reflexivity.
Qed.
Print Assumptions constrained_without_loop.

(** Limits lowered once suffice when the loop needs the full curvature. *)
Example first_without_loop_example : exists k sg, lowered (robot_v 1) 1 k sg /\
  createSimpleTurn (DubinsCC (fun k _ _ _ _ _ => if Rle_dec 1 k then [(2 * PI, 1)] else [(PI, 1)]) (fun k sg _ _ _ _ => [mkSteer k sg 0 1])) (robot_v 1) 1 2 0 0
  = steerStatesToPath [mkSteer k sg 0 1] 1.
Proof.
  pose proof PI_RGT_0 as P0.
  destruct (first_without_loop (fun k _ _ _ _ _ => if Rle_dec 1 k then [(2 * PI, 1)] else [(PI, 1)]) (fun k sg _ _ _ _ => [mkSteer k sg 0 1]) (robot_v 1) 1 2 0 0)
    as (n & k & sg & N & [L1 L2] & B & E & C); [simpl; lra|simpl; lra|]. cbn [rb_max_icc rb_diff_curv robot_v] in L1, L2.
  assert (F : forall x, full_turns (x * PI, 1) = x / 2) by (intro; unfold full_turns; cbn [fst snd]; field; lra).
  assert (NL : ~ loops [(PI, 1)]).
  { replace PI with (1 * PI) by ring. unfold loops. cbn [map In]. rewrite F, !rsum_cons. change (rsum []) with 0. rewrite Rplus_0_r, Rabs_right, ?Rplus_0_r by lra.
    intros [(c & [<-|[]] & Q)|[Q|Q]]; [rewrite F, Rabs_right in Q; lra|lra|lra]. }
  assert (n = 1%nat).
  { destruct n as [|[|n]]; [|reflexivity|].
    - exfalso. simpl in L1. destruct E as [E|E]; [discriminate|]. apply E. destruct (Rle_dec 1 k); [|lra]. left. exists (2 * PI, 1). split; [left; auto|]. rewrite F, Rabs_right; lra.
    - exfalso. apply NL. specialize (B 1%nat (20 / 21) (1 / 4) ltac:(lia)). destruct (Rle_dec 1 (20 / 21)); [lra|]. apply B. unfold lowered. simpl. split; lra. }
  subst n. exists k, sg. split; [split; assumption|]. exact C.
Qed.
