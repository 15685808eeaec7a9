(** Theorems about costs of turns (properties C258 - C261). *)
From Coq Require Import List Arith ZArith Bool Reals Lia Lra.
From Coq Require String.
From Verif Require Import Outcome Num ListAux Point_Model Angle_Model Angle_Spec Angle_Proofs Angle_Proofs2
  Path_Model Path_Spec Objective_Spec Objective_Proofs Objective_Props Robot_Model Turning_Model Turning_Spec
  Turning_Proofs Turning_Props Turning_Props2 PathPlanning_Spec PathPlanning_Proofs PathPlanning_Proofs2 Swath_Model Route_Model Route_Spec Route_Proofs Objective_Model CompleteTurn_Model CompleteTurn_Spec
  CompleteTurn_Proofs CompleteTurn_Proofs2.
Import ListNotations.
Open Scope R_scope.

(** C258.  The cost of going from one pose to another is the length of the turn the planner generates (or has stored) for
    the normal form of the request, 0 when it has fewer than two states. *)
Theorem turn_cost : forall simple o (p : pt) a (q : pt) b c o', to_cost simple o p a q b = Ok (c, o') ->
  to_robot o' = to_robot o /\
  exists d sa ea g, request p a q b d sa ea /\
    (if t_using (to_turner o) then createTurnIfNotCached simple (to_turner o) (to_robot o) d sa ea = Ok (g, to_turner o')
     else simple (to_robot o) (t_disc (to_turner o)) d sa ea = Ok g /\ to_turner o' = to_turner o) /\
    c = turn_length g.
Proof.
  intros simple o p a q b c o' H. destruct (cost_ok _ _ _ _ _ _ _ _ H) as (d & sa & ea & g & A & B & C & D). split; [exact D|].
  exists d, sa, ea, g. auto.
Qed.
Print Assumptions turn_cost.

(** Moving both poses of a request by the same motion changes neither the cost nor what is stored: translations and rotations for all
    different points, and reflections when the start heading does not point along the line between them. *)
Theorem turn_cost_moved : forall simple o (c : pt) th sg (p q p' q' : pt) a b a' b', sg = 1 \/ sg = -1 -> dist2 p q <> 0 ->
  at_xy p' (placing c th sg p) -> at_xy q' (placing c th sg q) ->
  congruent a' (th + sg * a) -> congruent b' (th + sg * b) -> sg = 1 \/ off_line p a q ->
  to_cost simple o p' a' q' b' = to_cost simple o p a q b.
Proof.
  intros simple o c th sg p q p' q' a b a' b' H1 H2 H3 H4 H5 H6 H7.
  destruct (transformToNormalTurn p a q b) as [[[[d rot] sa] ea] inv] eqn:E.
  destruct (moved_request c th sg p q p' q' a b a' b' d sa ea H1 H2 H3 H4 H5 H6 H7) as (rot' & inv' & E'); [exists rot, inv; exact E|].
  rewrite (cost_normal _ _ _ _ _ _ _ _ _ _ _ E), (cost_normal _ _ _ _ _ _ _ _ _ _ _ E'). reflexivity.
Qed.
Print Assumptions turn_cost_moved.

(** The request from (0, 0) heading up to (2, 0) heading down, and its mirror image moved by (5, 1). *)
Example turn_cost_moved_ex : let p := mkPoint (N := RNum) 0 0 0 in let q := mkPoint (N := RNum) 2 0 7 in
  let p' := mkPoint (N := RNum) 5 1 3 in let q' := mkPoint (N := RNum) 7 1 0 in
  dist2 p q <> 0 /\ at_xy p' (placing p' 0 (-1) p) /\ at_xy q' (placing p' 0 (-1) q) /\
  congruent (3 * (PI / 2)) (0 + -1 * (PI / 2)) /\ off_line p (PI / 2) q /\
  (exists d sa ea, request p (PI / 2) q (- (PI / 2)) d sa ea) /\
  exists c o', to_cost (straight 1) (to_new_with (robot_v 1) (t_setUsingCache turner_new false)) p (PI / 2) q (- (PI / 2)) = Ok (c, o') /\ c = 2.
Proof.
  cbv zeta. unfold dist2, at_xy, placing, off_line. cbn [px py fst snd]. rewrite cos_0, sin_0, cos_PI2, sin_PI2.
  split; [lra|]. split; [split; refine (_ : @eq R _ _); ring|]. split; [split; refine (_ : @eq R _ _); ring|]. split; [exists 1%Z; simpl; lra|]. split; [lra|].
  destruct (transformToNormalTurn (mkPoint (N := RNum) 0 0 0) (PI / 2) (mkPoint (N := RNum) 2 0 7) (- (PI / 2))) as [[[[d rot] sa] ea] inv] eqn:E.
  split; [exists d, sa, ea, rot, inv; exact E|].
  rewrite (cost_normal _ _ _ _ _ _ _ _ _ _ _ E). cbn [to_new_with to_turner to_robot t_setUsingCache t_using]. unfold straight. cbn [bind fst snd].
  do 2 eexists. split; [reflexivity|]. cbn [turn_length map]. unfold rsum. cbn [fold_right ps_len].
  destruct (normal_turn _ _ _ _ _ _ _ _ _ E) as (Hd & _). unfold dist2 in Hd. cbn [px py] in Hd.
  replace ((0 - 2) * (0 - 2) + (0 - 0) * (0 - 0)) with (2 * 2) in Hd by ring. rewrite sqrt_square in Hd by lra.
  rewrite Hd, Rabs_R0, Rabs_right by lra. ring.
Qed.

(** C259.  An objective that is only asked for costs, with the cache as it is made: if the length of the generator's turns changes
    by at most [L] per unit of distance or heading, then each cost is within 3 [L] / 1000 of the length of the generator's turn for this
    request, whatever was asked before. *)
Theorem turn_cost_near : forall simple rb (L : R) (ln : R -> R -> R -> R),
  (forall d sa ea g, simple rb (1 / 100) d sa ea = Ok g -> turn_length g = ln d sa ea) ->
  (forall d sa ea d' sa' ea', Rabs (ln d sa ea - ln d' sa' ea') <= L * (Rabs (d - d') + Rabs (sa - sa') + Rabs (ea - ea'))) ->
  forall ops o (p : pt) a (q : pt) b c o', Forall (fun c => exists p a q b, c = ToCost p a q b) ops ->
  foldM (to_step simple) ops (to_new rb) = Ok o -> to_cost simple o p a q b = Ok (c, o') ->
  exists d sa ea, request p a q b d sa ea /\ Rabs (c - ln d sa ea) <= 3 * L / 1000.
Proof.
  intros simple rb L ln Hln HL ops o p a q b c o' F H Hcost.
  destruct (history_turns simple rb ops o F H) as (Hrb & tops & T1 & T2).
  destruct (turns_only rb tops T2) as [D U]. pose proof (using_inv _ _ _ T1) as U'. rewrite U in U'.
  destruct (turn_cost _ _ _ _ _ _ _ _ Hcost) as (_ & d & sa & ea & g & (rot & inv & E) & G & ->).
  exists d, sa, ea. split; [exists rot, inv; exact E|]. rewrite U', Hrb in G.
  assert (L0 : 0 <= L).
  { specialize (HL 1 0 0 0 0 0). pose proof (Rabs_pos (ln 1 0 0 - ln 0 0 0)).
    replace (Rabs (1 - 0)) with 1 in HL by (rewrite Rminus_0_r, Rabs_R1; reflexivity). rewrite !Rminus_0_r, Rabs_R0 in HL. lra. }
  destruct (normal_turn _ _ _ _ _ _ _ _ _ E) as (Dd & _ & Rs & Re & _).
  assert (D0 : 0 <= d) by (rewrite Dd; apply sqrt_pos).
  destruct (cached_answer simple tops (to_turner o) rb d sa ea g (to_turner o') T1 G) as [K|(pre & op & post & rb' & d' & sa' & ea' & K1 & K2 & K3 & _ & _ & K4 & K5 & K6)].
  - rewrite D in K. rewrite (Hln _ _ _ _ K). unfold Rminus. rewrite Rplus_opp_r, Rabs_R0. lra.
  - rewrite K1 in T2. apply Forall_app in T2. destruct T2 as [T2 T3]. inversion T3 as [|? ? (p1 & a1 & q1 & b1 & Eop) _].
    rewrite Eop in K2. destruct K2 as [Erb (rot1 & inv1 & E1)]. rewrite Erb in K3. destruct (turns_only rb pre T2) as [D1 _]. rewrite D1 in K3. rewrite (Hln _ _ _ _ K3).
    destruct (normal_turn _ _ _ _ _ _ _ _ _ E1) as (Dd' & _ & Rs' & Re' & _).
    assert (D0' : 0 <= d') by (rewrite Dd'; apply sqrt_pos).
    destruct K4 as [_ K4]. destruct K5 as [_ K5]. destruct K6 as [_ K6].
    specialize (K4 D0 D0'). specialize (K5 (proj1 Rs) (proj1 Rs')). specialize (K6 (proj1 Re) (proj1 Re')).
    rewrite Rabs_minus_sym. eapply Rle_trans; [apply HL|].
    replace (3 * L / 1000) with (L * (1 / 1000 + 1 / 1000 + 1 / 1000)) by field. apply Rmult_le_compat_l; [exact L0|]. lra.
Qed.
Print Assumptions turn_cost_near.

(** For the planner that drives straight the conditions hold with L = 1. *)
Example turn_cost_near_ex : forall rb,
  (forall d sa ea g, straight 1 rb (1 / 100) d sa ea = Ok g -> turn_length g = Rabs d) /\
  (forall d sa ea d' sa' ea' : R, Rabs (Rabs d - Rabs d') <= 1 * (Rabs (d - d') + Rabs (sa - sa') + Rabs (ea - ea'))) /\
  exists o, foldM (to_step (straight 1)) [ToCost (mkPoint (N := RNum) 1 2 5) 0 (mkPoint (N := RNum) 4 6 5) 1] (to_new (robot_v 1)) = Ok o.
Proof.
  intro rb. split; [|split].
  - intros d sa ea g H. unfold straight in H. injection H as <-. cbn [turn_length map]. unfold rsum. cbn [fold_right ps_len].
    rewrite Rabs_R0. ring.
  - intros. pose proof (Rabs_triang_inv2 d d'). pose proof (Rabs_pos (sa - sa')). pose proof (Rabs_pos (ea - ea')). lra.
  - destruct turn_connects_example as (r & t' & E & _). cbn [foldM to_step]. unfold to_cost. cbn [to_new to_turner to_robot].
    rewrite E. cbn [bind fst snd]. eauto.
Qed.

Lemma headings_seg hd : headings hd -> forall a b, hd a b = seg_angle a b.
Proof.
  intros H a b. destruct (H a b) as [H1 H2]. destruct (Req_dec (dist2 a b) 0) as [D|D].
  - rewrite (H2 D). unfold seg_angle. rewrite angleFromPoint_eq.
    assert (X : px (p_sub RNum b a) = 0 /\ py (p_sub RNum b a) = 0).
    { unfold dist2 in D. pose proof (Rle_0_sqr (px a - px b)) as A1. pose proof (Rle_0_sqr (py a - py b)) as A2. unfold Rsqr in *.
      assert (B1 : (px a - px b) * (px a - px b) = 0) by lra. assert (B2 : (py a - py b) * (py a - py b) = 0) by lra.
      apply Rmult_integral in B1, B2. change (px b - px a = 0 /\ py b - py a = 0). destruct B1, B2; split; lra. }
    destruct X as [-> ->]. unfold Ratan2. destruct (Rlt_dec 0 0); [lra|]. symmetry. apply mod2_id. pose proof PI_RGT_0. lra.
  - apply heading_unique; [|auto]. unfold dist2 in *. pose proof (Rle_0_sqr (px a - px b)) as A1. pose proof (Rle_0_sqr (py a - py b)) as A2. unfold Rsqr in *. lra.
Qed.
Lemma extra_headings {W} hd cost4 : headings hd -> forall v : list (list (swath pt W)), map (extra hd cost4) v = map (extra seg_angle cost4) v.
Proof.
  intros H v. apply map_ext. intro g. induction g as [|s g IH]; [reflexivity|]. destruct g as [|t g]; [reflexivity|].
  change (extra hd cost4 (s :: t :: g)) with (match rev (sw_path s), sw_path t with
      | b :: a :: _, c :: e :: _ => cost4 b (hd a b) c (hd c e) - R_sqrt.sqrt (dist2 b c) | _, _ => 0 end + extra hd cost4 (t :: g)).
  rewrite IH. destruct (rev (sw_path s)) as [|b [|a l]] eqn:E1; [cbn [extra]; rewrite E1; reflexivity..|].
  destruct (sw_path t) as [|c [|e m]] eqn:E2; cbn [extra]; rewrite E1, E2; [reflexivity..|]. now rewrite !(headings_seg hd H).
Qed.

Example headings_ex : headings seg_angle.
Proof.
  intros a b. split; [intros _; apply heading_angle|]. intro D. unfold seg_angle. rewrite angleFromPoint_eq.
  assert (X : px (p_sub RNum b a) = 0 /\ py (p_sub RNum b a) = 0).
  { unfold dist2 in D. pose proof (Rle_0_sqr (px a - px b)) as A1. pose proof (Rle_0_sqr (py a - py b)) as A2. unfold Rsqr in *.
    assert (B1 : (px a - px b) * (px a - px b) = 0) by lra. assert (B2 : (py a - py b) * (py a - py b) = 0) by lra.
    apply Rmult_integral in B1, B2. change (px b - px a = 0 /\ py b - py a = 0). destruct B1, B2; split; lra. }
  destruct X as [-> ->]. unfold Ratan2. destruct (Rlt_dec 0 0); [lra|]. apply mod2_id. pose proof PI_RGT_0. lra.
Qed.

(** C258.  What was asked and set before a planner is set does not matter, except for the robot set last. *)
Theorem turn_planner_set : forall simple ops rb t o, foldM (to_step simple) ops (to_new rb) = Ok o ->
  foldM (to_step simple) (ops ++ [ToPlanner t]) (to_new rb) = Ok (to_new_with (last_robot rb ops) t).
Proof.
  intros simple ops rb t o H. rewrite foldM_app, H. cbn [bind foldM to_step]. unfold to_setTurnPlanner, to_new_with. do 2 f_equal.
  assert (G : forall ops o0 o, foldM (to_step simple) ops o0 = Ok o -> to_robot o = last_robot (to_robot o0) ops).
  { clear. induction ops as [|c ops IH]; intros o0 o H; [injection H as <-; reflexivity|]. cbn [foldM] in H.
    destruct (to_step simple o0 c) as [o1| | |] eqn:E; try discriminate H. cbn [bind] in H. rewrite (IH _ _ H).
    destruct c as [p a q b|r|u]; cbn [to_step last_robot] in *.
    - unfold to_cost in E. destruct (createTurn simple (to_turner o0) (to_robot o0) p a q b) as [r| | |]; try discriminate E. injection E as <-. reflexivity.
    - injection E as <-. reflexivity.
    - injection E as <-. reflexivity. }
  exact (G _ _ _ H).
Qed.
Print Assumptions turn_planner_set.
Example turn_planner_set_ex : exists o, foldM (to_step (straight 1)) [ToCost (mkPoint (N := RNum) 1 2 5) 0 (mkPoint (N := RNum) 4 6 5) 1; ToRobot (robot_v 2)] (to_new (robot_v 1)) = Ok o.
Proof.
  destruct turn_connects_example as (r & t' & E & _). cbn [foldM to_step]. unfold to_cost. cbn [to_new to_turner to_robot].
  rewrite E. cbn [bind fst snd]. eauto.
Qed.

(** C260.  With the cache off, costs do not change the objective, and the cost of a route built by any calls is its length, less
    the jumps between groups without connection points, plus what the turns between consecutive swaths of a group
    cost more than straight lines. *)
Theorem turn_route_cost : forall simple o, t_using (to_turner o) = false ->
  (forall d sa ea, exists g, simple (to_robot o) (t_disc (to_turner o)) d sa ea = Ok g) ->
  exists cost4, (forall p a q b, to_cost simple o p a q b = Ok (cost4 p a q b, o)) /\
  forall hd, headings hd -> forall (W : Type) (h : list (rop pt W)) r, Forall rop_long h -> r_run h = Ok r ->
    to_cost_route simple o r = Ok (len p_distance (flat_map rop_line h)
      - missed p_distance (mkPoint (N := RNum) 0 0 0) (r_swaths r) (r_conns r) + rsum (map (extra hd cost4) (r_swaths r)), o).
Proof.
  intros simple o U Hs.
  exists (fun p a q b => match to_cost simple o p a q b with Ok (c, _) => c | _ => 0 end).
  assert (Hc : forall p a q b, to_cost simple o p a q b = Ok (match to_cost simple o p a q b with Ok (c, _) => c | _ => 0 end, o)).
  { intros p a q b. destruct (transformToNormalTurn p a q b) as [[[[d rot] sa] ea] inv] eqn:E.
    rewrite (cost_normal _ _ _ _ _ _ _ _ _ _ _ E). rewrite U. destruct (Hs d sa ea) as [g ->]. cbn [bind fst snd]. destruct o; reflexivity. }
  split; [exact Hc|]. intros hd HD W h r HL E. rewrite (extra_headings hd _ HD).
  destruct (run_good (mkPoint (N := RNum) 0 0 0) seg_angle p_distance h r HL E) as (_ & G & _).
  destruct (route_cost_deficit (mkPoint (N := RNum) 0 0 0) seg_angle p_distance h r HL E) as (c0 & E0 & E1 & _).
  rewrite (route_extra simple o _ Hc r c0 G E0), E1. do 2 f_equal. ring.
Qed.
Print Assumptions turn_route_cost.

(** Two swaths in one group: the turn between them is the distance driven straight. *)
Example turn_route_cost_ex : let s := mkSwath pt R 0%Z [mkPoint (N := RNum) 0 0 0; mkPoint (N := RNum) 0 4 0] 1 true MAINLAND in
  let t := mkSwath pt R 1%Z [mkPoint (N := RNum) 3 4 0; mkPoint (N := RNum) 3 0 0] 1 true MAINLAND in
  let o := to_new_with (robot_v 1) (t_setUsingCache turner_new false) in
  t_using (to_turner o) = false /\ (forall d sa ea, exists g, straight 1 (to_robot o) (t_disc (to_turner o)) d sa ea = Ok g) /\
  Forall rop_long [RAddSwaths [s; t]] /\ exists r, r_run [RAddSwaths [s; t]] = Ok r /\ r_swaths r = [[s; t]].
Proof.
  cbv zeta. split; [reflexivity|]. split; [unfold straight; eauto|]. split.
  - repeat constructor; try discriminate. intros x [<-|[<-|[]]]; simpl; lia.
  - eexists. split; reflexivity.
Qed.

(** A planner whose turns are half circles with the smallest radius of the robot. *)
Definition half_circle : robot RNum -> R -> R -> R -> R -> outcome (list (pstate RNum)) := fun rb _ d sa _ =>
  Ok [mkPS (N := RNum) (mkPoint (N := RNum) 0 0 0) sa (PI / rb_max_icc rb) 1 SEC_TURN 1;
      mkPS (N := RNum) (mkPoint (N := RNum) d 0 0) (sa + PI) 0 1 SEC_TURN 1].
(** Robots with minimum turning radius r. *)
Definition robot_r (r : R) : robot RNum := rb_setMinTurningRadius RNum (robot_v 1) r.

Lemma robot_r_icc r : 0 < r -> rb_max_icc (robot_r r) = 1 / (r + 1 / 10000000).
Proof. intro H. change (1 / (Rabs r + 1 / 10000000) = 1 / (r + 1 / 10000000)). rewrite Rabs_right by lra. reflexivity. Qed.

Lemma half_turn_distance x : circular_distance x (x + PI) PI.
Proof.
  pose proof PI_RGT_0 as Hp. split.
  - exists 1%Z. replace (x - (x + PI) + 1 * (2 * PI)) with PI by ring. rewrite Rabs_right; lra.
  - intro k. replace (x - (x + PI) + IZR k * (2 * PI)) with (PI * IZR (2 * k - 1)) by (rewrite minus_IZR, mult_IZR; ring).
    rewrite Rabs_mult, (Rabs_right PI), <- abs_IZR by lra.
    assert (1 <= IZR (Z.abs (2 * k - 1))) by (apply IZR_le; lia). nra.
Qed.

(** C261, refuted: after setRobot with a radius of 52 m the cost is still that for the robot with 51 m, and the turn is too
    tight for the new robot, although each generated turn keeps to the radius of its robot: the key has only the curvature in thousandths. *)
Theorem turn_cost_robot_refuted : exists simple (p q : pt) a b o o' c,
  (forall (rb : robot RNum) disc d sa ea g, 0 < rb_max_icc rb -> simple rb disc d sa ea = Ok g -> bends_at_most (rb_max_icc rb) g /\ turn_length g = PI / rb_max_icc rb) /\
  foldM (to_step simple) [ToCost p a q b; ToRobot (robot_r 52)] (to_new (robot_r 51)) = Ok o /\
  to_robot o = robot_r 52 /\ to_cost simple o p a q b = Ok (c, o') /\ c < PI / rb_max_icc (robot_r 52) - 3 /\
  exists g t', createTurn simple (to_turner o) (to_robot o) p a q b = Ok (g, t') /\ ~ bends_at_most (rb_max_icc (to_robot o)) g.
Proof.
  set (p := mkPoint (N := RNum) 0 0 0). set (q := mkPoint (N := RNum) 2 0 0).
  pose proof PI_RGT_0 as Hp. pose proof PI_4 as Hp4.
  destruct (transformToNormalTurn p 0 q 0) as [[[[d rot] sa] ea] inv] eqn:E.
  destruct (normal_turn _ _ _ _ _ _ _ _ _ E) as (Hd & _ & Rs & Re & _).
  assert (Ed : d = 2). { rewrite Hd. unfold dist2, p, q. cbn [px py]. replace ((0 - 2) * (0 - 2) + (0 - 0) * (0 - 0)) with (2 * 2) by ring. apply sqrt_square. lra. }
  pose proof (robot_r_icc 51 ltac:(lra)) as I1. pose proof (robot_r_icc 52 ltac:(lra)) as I2.
  (* the keys *)
  assert (M : forall x k, (0 <= k <= 2147483647)%Z -> IZR k <= 1000 * x < IZR k + 1 -> milli x = Ok k).
  { intros x k Hk Hx. unfold milli. assert (0 <= IZR k) by (apply IZR_le; lia).
    assert (T : Rtrunc (1000 * x) = k). { unfold Rtrunc. destruct (Rle_dec 0 (1000 * x)); [|lra]. apply floor_unique. exact Hx. }
    rewrite T. apply to_int_ok. lia. }
  assert (B1 : 19 <= 1000 * (1 / (51 + 1 / 10000000)) < 20) by lra.
  assert (B2 : 19 <= 1000 * (1 / (52 + 1 / 10000000)) < 20) by lra.
  assert (MA : forall x, 0 <= x < 10 -> exists k, milli x = Ok k).
  { intros x Hx. exists (Rtrunc (1000 * x)). unfold milli. apply to_int_ok. unfold Rtrunc. destruct (Rle_dec 0 (1000 * x)); [|lra].
    destruct (floor_spec (1000 * x)) as [F1 F2]. assert (-1 < Int_part (1000 * x))%Z by (apply lt_IZR; lra).
    assert (Int_part (1000 * x) < 10001)%Z by (apply lt_IZR; lra). lia. }
  destruct (MA sa) as [k4 K4]; [lra|]. destruct (MA ea) as [k5 K5]; [lra|].
  assert (KEY : forall r, r = 51 \/ r = 52 -> turn_key (robot_r r) d sa ea = Ok [19; 300; 2000; k4; k5]%Z).
  { intros r Hr. unfold turn_key, rb_getMaxCurv, rb_getMaxDiffCurv. cbn [mapM].
    rewrite (M (rb_max_icc (robot_r r)) 19%Z); [|lia|destruct Hr as [-> | ->]; rewrite ?I1, ?I2; lra]. cbn [bind].
    change (rb_diff_curv (robot_r r)) with (3 / 10). rewrite (M (3 / 10) 300%Z) by (try lia; lra). cbn [bind].
    rewrite Ed, (M 2 2000%Z) by (try lia; lra). cbn [bind]. rewrite K4. cbn [bind]. rewrite K5. reflexivity. }
  set (g1 := [mkPS (N := RNum) (mkPoint (N := RNum) 0 0 0) sa (PI / rb_max_icc (robot_r 51)) 1 SEC_TURN 1;
      mkPS (N := RNum) (mkPoint (N := RNum) d 0 0) (sa + PI) 0 1 SEC_TURN 1] : list (pstate RNum)).
  set (t1 := mkTurner [([19; 300; 2000; k4; k5]%Z, g1)] (1 / 100) true).
  assert (C1 : createTurnIfNotCached half_circle turner_new (robot_r 51) d sa ea = Ok (g1, t1)).
  { unfold createTurnIfNotCached. rewrite KEY by auto. reflexivity. }
  assert (C2 : createTurnIfNotCached half_circle t1 (robot_r 52) d sa ea = Ok (g1, t1)).
  { unfold createTurnIfNotCached. rewrite KEY by auto. cbn [bind t_cache t1 cache_find].
    destruct (list_eq_dec Z.eq_dec [19; 300; 2000; k4; k5]%Z [19; 300; 2000; k4; k5]%Z); [reflexivity|congruence]. }
  assert (LEN : forall x y : rstate, turn_length [x; y] = Rabs (ps_len x) + Rabs (ps_len y)).
  { intros. cbn [turn_length map]. unfold rsum. cbn [fold_right]. ring. }
  assert (V1 : PI / (1 / (51 + 1 / 10000000)) = PI * (51 + 1 / 10000000)) by (field; lra).
  assert (V2 : PI / (1 / (52 + 1 / 10000000)) = PI * (52 + 1 / 10000000)) by (field; lra).
  assert (P3 : 3 < PI) by (pose proof PI2_3_2; lra).
  assert (TL : turn_length g1 = PI * (51 + 1 / 10000000)).
  { unfold g1. rewrite LEN. cbn [ps_len]. rewrite I1, V1, Rabs_R0, Rabs_right; [ring|nra]. }
  exists half_circle, p, q, 0, 0, (mkTO t1 (robot_r 52)), (mkTO t1 (robot_r 52)), (turn_length g1).
  split; [|split; [|split; [reflexivity|split; [|split]]]].
  - intros rb disc d0 sa0 ea0 g H0 H. unfold half_circle in H. injection H as <-. split.
    + cbn [bends_at_most ps_angle ps_len]. split; [|exact I]. exists PI. split; [apply half_turn_distance|].
      assert (Q : forall x : R, 0 < x -> PI <= x * Rabs (PI / x)).
      { intros x Hx. rewrite Rabs_right; [|apply Rle_ge, Rlt_le, Rdiv_lt_0_compat; lra]. right. field. lra. }
      apply Q. exact H0.
    + rewrite LEN. cbn [ps_len]. assert (Q : forall x : R, 0 < x -> Rabs (PI / x) + Rabs 0 = PI / x).
      { intros x Hx. rewrite Rabs_R0, Rabs_right; [ring|apply Rle_ge, Rlt_le, Rdiv_lt_0_compat; lra]. }
      apply Q. exact H0.
  - cbn [foldM to_step]. rewrite (cost_normal _ _ _ _ _ _ _ _ _ _ _ E). cbn [to_new to_turner to_robot t_using turner_new].
    change (mkTurner [] (1 / 100) true) with turner_new. rewrite C1. reflexivity.
  - rewrite (cost_normal _ _ _ _ _ _ _ _ _ _ _ E). cbn [to_turner to_robot t_using t1]. fold t1. rewrite C2. reflexivity.
  - rewrite TL, I2, V2. lra.
  - cbn [to_turner to_robot]. unfold createTurn. rewrite E. cbn [t_using t1]. fold t1. rewrite C2. cbn [bind].
    change (Nat.leb (length g1) 1) with false. cbv iota.
    assert (X : exists x y, map (turn_place rot p) (if inv then map turn_mirror g1 else g1) = [x; y] /\ ps_len x = PI / rb_max_icc (robot_r 51) /\
      exists z, congruent (ps_angle x) z /\ congruent (ps_angle y) (z + PI)).
    { destruct inv; do 2 eexists; (split; [reflexivity|]); (split; [reflexivity|]); cbn [turn_place turn_mirror ps_angle].
      - exists (- sa + rot). split.
        + eapply congruent_trans; [apply mod2_congr|]. apply congr_add; [apply mod2_congr|apply congruent_refl].
        + eapply congruent_trans; [apply mod2_congr|]. replace (- sa + rot + PI) with (- sa + PI + rot) by ring. apply congr_add; [|apply congruent_refl].
          eapply congruent_trans; [apply mod2_congr|]. exists (-1)%Z. simpl. ring.
      - exists (sa + rot). split; [apply mod2_congr|]. eapply congruent_trans; [apply mod2_congr|].
        replace (sa + rot + PI) with (sa + PI + rot) by ring. apply congruent_refl. }
    destruct X as (x & y & -> & Lx & z & Zx & Zy). change [x; y] with (x :: [] ++ [y]). rewrite correct_ends. cbn [bind app].
    do 2 eexists. split; [reflexivity|]. cbn [bends_at_most]. intros [(u & U1 & U2) _].
    assert (SA : forall c (s : rstate), ps_angle (snap c s) = ps_angle s) by (intros; unfold snap; destruct (Rlt_dec _ _); reflexivity).
    assert (SL : forall c (s : rstate), ps_len (snap c s) = ps_len s) by (intros; unfold snap; destruct (Rlt_dec _ _); reflexivity).
    rewrite !SA in U1. rewrite SL, Lx, I1, I2, V1 in U2.
    assert (Eu : u = PI).
    { apply (circular_unique (ps_angle x) (ps_angle y)); [exact U1|].
      apply (circular_congr z (ps_angle x) (z + PI) (ps_angle y)); [apply congruent_sym; exact Zx|apply congruent_sym; exact Zy|apply half_turn_distance]. }
    subst u. rewrite Rabs_right in U2 by nra.
    assert (W1 : 1 / (52 + 1 / 10000000) * (PI * (51 + 1 / 10000000)) < PI); [|lra].
    replace (1 / (52 + 1 / 10000000) * (PI * (51 + 1 / 10000000))) with (PI * ((51 + 1 / 10000000) / (52 + 1 / 10000000))) by (field; lra).
    assert ((51 + 1 / 10000000) / (52 + 1 / 10000000) < 1) by lra. nra.
Qed.
Print Assumptions turn_cost_robot_refuted.
