(** Theorems about turns (src/fields2cover/path_planning/turning_base.cpp,
    steer_to_path.hpp, dubins_curves_cc.cpp). *)
From Coq Require Import List Arith ZArith Bool Reals Lia Lra.
From Coq Require String.
From Verif Require Import Outcome Num ListAux Point_Model Angle_Model Angle_Spec Angle_Proofs Angle_Proofs2 Angle_Props
  Path_Model Path_Spec Path_Proofs Path_Proofs2 Path_Props Objective_Spec Objective_Proofs2 SwathGen_Proofs2 Robot_Model Turning_Model Turning_Spec Turning_Proofs.
Import ListNotations.
Open Scope R_scope.

(** C52.  The normal form of a turn: the distance, and headings relative to the line
    from start to end, the first one in the upper half plane; the motion [placing]
    with the returned angle and reflection takes the normal form back to the asked
    start and end. *)
Theorem normal_turn : forall (p : pt) a (q : pt) b d rot sa ea inv,
  transformToNormalTurn p a q b = (d, rot, sa, ea, inv) ->
  let sg := if inv then -1 else 1 in
  d = R_sqrt.sqrt (dist2 p q) /\ 0 <= rot < 2 * PI /\ 0 <= sa <= PI /\ 0 <= ea < 2 * PI /\
  isometry (placing p rot sg) /\
  at_xy p (placing p rot sg (mkPoint (N := RNum) 0 0 0)) /\ at_xy q (placing p rot sg (mkPoint (N := RNum) d 0 0)) /\
  congruent (rot + sg * sa) a /\ congruent (rot + sg * ea) b.
Proof.
  intros p a q b d rot sa ea inv H sg. destruct (normal_turn_raw _ _ _ _ _ _ _ _ _ H) as (A & B & C & D & E & F & G & I).
  repeat (split; [assumption|]). split; [apply placing_isometry; subst sg; destruct inv; auto|]. auto.
Qed.
Print Assumptions normal_turn.

(** A turn to the right (start heading below the line) is mirrored. *)
Example normal_turn_example : transformToNormalTurn (mkPoint (N := RNum) 1 1 0) (- (PI / 2)) (mkPoint (N := RNum) 3 1 0) (PI / 2)
  = (R_sqrt.sqrt 4, 0, PI / 2, mod_2pi (- (PI / 2)), true).
Proof.
  pose proof PI_RGT_0. unfold transformToNormalTurn.
  assert (E : angleFromPoint (p_sub RNum (mkPoint (N := RNum) 3 1 0) (mkPoint (N := RNum) 1 1 0)) = 0).
  { rewrite angleFromPoint_eq. cbn [p_sub px py]. apply mod2_unique; [lra|]. unfold Ratan2. destruct (Rlt_dec 0 (nsub RNum 3 1)) as [L|L]; [|simpl in L; lra].
    replace (nsub RNum 1 1 / nsub RNum 3 1) with 0 by (simpl; field). rewrite atan_0. apply congruent_refl. }
  rewrite E, (mod2_id 0) by lra. rewrite !Rminus_0_r.
  assert (E1 : mod_2pi (- (PI / 2)) = 3 * (PI / 2)) by (apply mod2_unique; [lra|exists 1%Z; simpl; lra]).
  assert (E2 : mod_2pi (- (3 * (PI / 2))) = PI / 2) by (apply mod2_unique; [lra|exists 1%Z; simpl; lra]).
  rewrite E1, (mod2_id (PI / 2)), E1, E2 by lra. destruct (Rlt_dec PI (3 * (PI / 2))); [|lra].
  unfold p_distance. cbn [px py]. repeat f_equal. ring.
Qed.

(** C121.  What createTurn returns: the generated (or stored) turn moved into place,
    its first and last state put on the asked points when less than 0.05 away; an
    empty path when there are fewer than two states. *)
Theorem create_turn : forall simple t rb (p : pt) a (q : pt) b r t',
  createTurn simple t rb p a q b = Ok (r, t') ->
  exists d rot sa ea inv g, transformToNormalTurn p a q b = (d, rot, sa, ea, inv) /\
    (if t_using t then createTurnIfNotCached simple t rb d sa ea = Ok (g, t') else simple rb (t_disc t) d sa ea = Ok g /\ t' = t) /\
    ((length g <= 1)%nat -> r = []) /\
    ((2 <= length g)%nat -> exists s mid e s1 mid1 e1 s2 e2, g = s :: mid ++ [e] /\ r = s2 :: mid1 ++ [e2] /\
       Forall2 (moved p rot (if inv then -1 else 1)) (s :: mid ++ [e]) (s1 :: mid1 ++ [e1]) /\ snapped p s1 s2 /\ snapped q e1 e2).
Proof. exact create_turn_raw. Qed.
Print Assumptions create_turn.

(** It is defined whenever the generator is and the key fits the integers. *)
Theorem create_turn_defined : forall simple t (rb : robot RNum) (p : pt) a (q : pt) b d rot sa ea inv,
  transformToNormalTurn p a q b = (d, rot, sa, ea, inv) ->
  (exists g, simple rb (t_disc t) d sa ea = Ok g) ->
  (t_using t = true -> forall x, In x [rb_max_icc rb : R; rb_diff_curv rb : R; d; sa; ea] -> Rabs x < 2147483) ->
  exists r t', createTurn simple t rb p a q b = Ok (r, t').
Proof.
  intros simple t rb p a q b d rot sa ea inv E [g Hg] HK. unfold createTurn. rewrite E.
  assert (F : forall (g' : list rstate) (t1 : turner), exists r t', (if Nat.leb (List.length g') 1 then Ok ([], t1) else
      do path <- correctPath (map (turn_place rot p) (if inv then map turn_mirror g' else g')) p q; Ok (path, t1)) = Ok (r, t')).
  { intros g' t1. destruct (Nat.leb (List.length g') 1) eqn:L; [eauto|]. apply Nat.leb_gt in L.
    destruct (two_ends (map (turn_place rot p) (if inv then map turn_mirror g' else g'))) as (s & mid & e & ->).
    { destruct inv; rewrite !map_length; lia. }
    rewrite correct_ends. cbn [bind]. eauto. }
  destruct (t_using t).
  - assert (K : exists k, turn_key rb d sa ea = Ok k).
    { assert (M : forall x, Rabs x < 2147483 -> exists k, milli x = Ok k).
      { intros x Hx. unfold milli, to_int. apply Rabs_def2 in Hx. exists (Rtrunc (1000 * x)).
        assert (B : (-2147483648 <= Rtrunc (1000 * x) <= 2147483647)%Z).
        { destruct (Rlt_le_dec x 0) as [L|L].
          - rewrite (trunc_neg (1000 * x)) by lra. destruct (trunc_spec (- (1000 * x)) ltac:(lra)) as (A & B1 & B2).
            assert (Rtrunc (- (1000 * x)) < 2147483000)%Z by (apply lt_IZR; lra). lia.
          - destruct (trunc_spec (1000 * x) ltac:(lra)) as (A & B1 & B2).
            assert (Rtrunc (1000 * x) < 2147483000)%Z by (apply lt_IZR; lra). lia. }
        replace (Z.leb (-2147483648) (Rtrunc (1000 * x))) with true by (symmetry; apply Z.leb_le; lia).
        replace (Z.leb (Rtrunc (1000 * x)) 2147483647) with true by (symmetry; apply Z.leb_le; lia). reflexivity. }
      specialize (HK eq_refl). unfold turn_key, rb_getMaxCurv, rb_getMaxDiffCurv. cbn [mapM].
      destruct (M (rb_max_icc rb)) as [k1 ->]; [apply HK; simpl; auto|]. destruct (M (rb_diff_curv rb)) as [k2 ->]; [apply HK; simpl; auto|].
      destruct (M d) as [k3 ->]; [apply HK; simpl; auto|]. destruct (M sa) as [k4 ->]; [apply HK; simpl; auto|]. destruct (M ea) as [k5 ->]; [apply HK; simpl; auto 6|].
      cbn [bind]. eauto. }
    destruct K as [k K]. unfold createTurnIfNotCached. rewrite K. cbn [bind]. destruct (cache_find k (t_cache t)); [apply F|]. rewrite Hg. cbn [bind]. apply F.
  - rewrite Hg. cbn [bind]. apply F.
Qed.
Print Assumptions create_turn_defined.

(** C122.  If the generator's turn starts at the origin with the normal start heading
    and ends at distance d on the axis with the normal end heading, the created turn
    starts at the asked point with the asked heading and ends so, with the same
    lengths, and it is contiguous when the generated one is. *)
Theorem turn_connects : forall simple t rb (p : pt) a (q : pt) b d rot sa ea inv g r t' s mid e,
  transformToNormalTurn p a q b = (d, rot, sa, ea, inv) ->
  createTurn simple t rb p a q b = Ok (r, t') ->
  (if t_using t then createTurnIfNotCached simple t rb d sa ea = Ok (g, t') else simple rb (t_disc t) d sa ea = Ok g) ->
  g = s :: mid ++ [e] ->
  at_xy (ps_point s) (0, 0) -> congruent (ps_angle s) sa -> at_xy (ps_point e) (d, 0) -> congruent (ps_angle e) ea ->
  exists s' mid' e', r = s' :: mid' ++ [e'] /\ ps_point s' = p /\ congruent (ps_angle s') a /\ ps_point e' = q /\ congruent (ps_angle e') b /\
    (contiguous g -> contiguous r) /\ path_length RNum r = path_length RNum g /\ path_getTaskTime RNum r = path_getTaskTime RNum g.
Proof.
  intros simple t rb p a q b d rot sa ea inv g r t' s mid e E H Hg Eg [S1 S2] Sa [E1 E2] Ea.
  destruct (normal_turn _ _ _ _ _ _ _ _ _ E) as (_ & _ & _ & _ & _ & Np & Nq & Na & Nb).
  apply create_turn in H. destruct H as (d0 & rot0 & sa0 & ea0 & inv0 & g0 & T & G & _ & C). rewrite E in T. injection T as <- <- <- <- <-.
  assert (g0 = g). { destruct (t_using t); [|destruct G]; congruence. } subst g0.
  destruct C as (s0 & mid0 & e0 & s1 & mid1 & e1 & s2 & e2 & Eg' & -> & F & Ks & Ke). { rewrite Eg. simpl. rewrite app_length. simpl. lia. }
  rewrite Eg in Eg'. injection Eg' as <- Eg'. apply app_inj_tail in Eg'. destruct Eg' as [<- <-].
  set (sg := if inv then -1 else 1) in *. assert (Hsg : sg = 1 \/ sg = -1) by (subst sg; destruct inv; auto).
  inversion F as [|? ? ? ? M1 F']. subst. apply Forall2_app_inv_l in F'. destruct F' as (m1 & m2 & Fm & Fe & Em).
  inversion Fe as [|? ? ? ? M2 F2]. subst. inversion F2. subst. apply app_inj_tail in Em. destruct Em as [-> ->].
  assert (P1 : ps_point s2 = p).
  { destruct Ks as (_ & _ & K & _). apply K. destruct M1 as ([A1 A2] & _). unfold placing in A1, A2. cbn [fst snd] in *. rewrite S1, S2 in *.
    destruct Np as [N1 N2]. unfold placing in N1, N2. cbn [fst snd px py] in N1, N2.
    assert (Z : dist2 (ps_point s1) p = 0). { unfold dist2. rewrite A1, A2, <- N1, <- N2. ring. }
    rewrite Z, sqrt_0. lra. }
  assert (P2 : ps_point e2 = q).
  { destruct Ke as (_ & _ & K & _). apply K. destruct M2 as ([A1 A2] & _). unfold placing in A1, A2. cbn [fst snd] in *. rewrite E1, E2 in *.
    destruct Nq as [N1 N2]. unfold placing in N1, N2. cbn [fst snd px py] in N1, N2.
    assert (Z : dist2 (ps_point y) q = 0). { unfold dist2. rewrite A1, A2, <- N1, <- N2. ring. }
    rewrite Z, sqrt_0. lra. }
  assert (FC : Forall2 (carried (placing p rot sg)) (s :: mid ++ [e]) (s2 :: m1 ++ [e2])).
  { constructor; [|apply Forall2_app; [|constructor; [|constructor]]].
    - destruct Ks as (K1 & K2 & _). apply (moved_carried p rot sg s s1 p Hsg M1); auto.
      destruct Np as [N1 N2]. unfold at_xy, placing in *. cbn [fst snd px py] in *. rewrite S1, S2. auto.
    - clear - Fm Hsg. induction Fm as [|x y l l' M Fm IH]; constructor; auto.
      apply (moved_carried p rot sg x y (ps_point y) Hsg M); auto; [apply M|unfold same_kind; auto].
    - destruct Ke as (K1 & K2 & _). apply (moved_carried p rot sg e y q Hsg M2); auto.
      destruct Nq as [N1 N2]. unfold at_xy, placing in *. cbn [fst snd px py] in *. rewrite E1, E2. auto. }
  exists s2, m1, e2. split; [reflexivity|]. split; [exact P1|]. split; [|split; [exact P2|split]].
  - destruct Ks as ((K & _) & _). rewrite K. destruct M1 as (_ & _ & _ & C & _). eapply congruent_trans; [exact C|]. eapply congruent_trans; [|exact Na].
    apply congr_add; [apply congruent_refl|]. destruct Hsg as [-> | ->]; [rewrite !Rmult_1_l; auto|].
    replace (-1 * ps_angle s) with (- ps_angle s) by ring. replace (-1 * sa) with (- sa) by ring. apply congr_opp; auto.
  - destruct Ke as ((K & _) & _). rewrite K. destruct M2 as (_ & _ & _ & C & _). eapply congruent_trans; [exact C|]. eapply congruent_trans; [|exact Nb].
    apply congr_add; [apply congruent_refl|]. destruct Hsg as [-> | ->]; [rewrite !Rmult_1_l; auto|].
    replace (-1 * ps_angle e) with (- ps_angle e) by ring. replace (-1 * ea) with (- ea) by ring. apply congr_opp; auto.
  - destruct (path_motions_keep _ _ _ FC) as (X & Y & Z). auto.
Qed.
Print Assumptions turn_connects.

(** A planner that drives straight, as an instance of the hypotheses. *)
Definition straight (v : R) : robot RNum -> R -> R -> R -> R -> outcome (list rstate) := fun rb disc d sa ea =>
  Ok [mkPS (N := RNum) (mkPoint (N := RNum) 0 0 0) sa d 1 2 (rb_getTurnVel RNum rb);
      mkPS (N := RNum) (mkPoint (N := RNum) d 0 0) ea 0 1 2 (rb_getTurnVel RNum rb)].

Definition robot_v (v : R) : robot RNum := mkRobot (N := RNum) String.EmptyString 1 1 1 1 (3 / 10) (Some v).

Example turn_connects_example : exists r t', createTurn (straight 1) turner_new (robot_v 1) (mkPoint (N := RNum) 1 2 5) 0 (mkPoint (N := RNum) 4 6 5) 1 = Ok (r, t') /\
  exists s' mid' e', r = s' :: mid' ++ [e'] /\ ps_point s' = mkPoint (N := RNum) 1 2 5 /\ ps_point e' = mkPoint (N := RNum) 4 6 5 /\ congruent (ps_angle e') 1.
Proof.
  destruct (transformToNormalTurn (mkPoint (N := RNum) 1 2 5) 0 (mkPoint (N := RNum) 4 6 5) 1) as [[[[d rot] sa] ea] inv] eqn:E.
  assert (D : d = 5).
  { destruct (normal_turn _ _ _ _ _ _ _ _ _ E) as (A & _). rewrite A. unfold dist2. cbn [px py]. replace ((1 - 4) * (1 - 4) + (2 - 6) * (2 - 6)) with (5 * 5) by ring. apply sqrt_square. lra. }
  destruct (create_turn_defined (straight 1) turner_new (robot_v 1) _ _ _ _ _ _ _ _ _ E) as (r & t' & H).
  - unfold straight. eauto.
  - intros _ x Hx. destruct (normal_turn _ _ _ _ _ _ _ _ _ E) as (_ & _ & R1 & R2 & _). pose proof PI_RGT_0. pose proof PI_4.
    apply Rabs_def1; cbn [rb_max_icc rb_diff_curv robot_v In] in Hx; repeat (destruct Hx as [<-|Hx]; [lra|]); contradiction.
  - exists r, t'. split; [exact H|].
    pose proof (create_turn _ _ _ _ _ _ _ _ _ H) as (d0 & rot0 & sa0 & ea0 & inv0 & g & T & G & _). rewrite E in T. injection T as <- <- <- <- <-.
    assert (Eg : g = [mkPS (N := RNum) (mkPoint (N := RNum) 0 0 0) sa d 1 2 1; mkPS (N := RNum) (mkPoint (N := RNum) d 0 0) ea 0 1 2 1]).
    { cbn [t_using turner_new] in G. apply cached_raw in G. destruct G as (k & _ & [[[] _]|(_ & G & _)]). unfold straight in G. injection G as <-. reflexivity. }
    destruct (turn_connects _ _ _ _ _ _ _ _ _ _ _ _ g r t' _ [] _ E H G Eg) as (s' & mid' & e' & Q1 & Q2 & _ & Q3 & Q4 & _);
      [split; reflexivity|apply congruent_refl|split; reflexivity|apply congruent_refl|].
    exists s', mid', e'. auto.
Qed.

(** C54.  Every stored turn was made by the generator for a request of the history,
    with the discretization then in force, and is stored under the key of that request;
    no key is stored twice. *)
Theorem cache_provenance : forall simple ops t, foldM (turn_step simple) ops turner_new = Ok t ->
  t_disc t = disc_after ops /\ NoDup (map fst (t_cache t)) /\
  forall k g, In (k, g) (t_cache t) -> exists pre o post rb d sa ea, ops = pre ++ o :: post /\ asks o rb d sa ea /\
    simple rb (disc_after pre) d sa ea = Ok g /\ turn_key rb d sa ea = Ok k.
Proof. exact cache_inv. Qed.
Print Assumptions cache_provenance.

(** So the answer to a request is the generator's answer to this request or to an
    earlier one whose curvature limits, distance and headings differ by less than a
    thousandth (two when the signs differ). *)
Theorem cached_answer : forall simple ops t rb d sa ea g t', foldM (turn_step simple) ops turner_new = Ok t ->
  createTurnIfNotCached simple t rb d sa ea = Ok (g, t') ->
  simple rb (disc_after ops) d sa ea = Ok g \/
  exists pre o post rb' d' sa' ea', ops = pre ++ o :: post /\ asks o rb' d' sa' ea' /\ simple rb' (disc_after pre) d' sa' ea' = Ok g /\
    within_milli (rb_max_icc rb) (rb_max_icc rb') /\ within_milli (rb_diff_curv rb) (rb_diff_curv rb') /\
    within_milli d d' /\ within_milli sa sa' /\ within_milli ea ea'.
Proof.
  intros simple ops t rb d sa ea g t' H C. destruct (cache_provenance _ _ _ H) as (D & _ & I). apply cached_raw in C.
  destruct C as (k & K & [[Hin _]|(_ & G & _)]); [right|left; rewrite <- D; exact G].
  destruct (I k g Hin) as (pre & o & post & rb' & d' & sa' & ea' & A1 & A2 & A3 & A4). exists pre, o, post, rb', d', sa', ea'.
  split; [exact A1|]. split; [exact A2|]. split; [exact A3|]. apply (key_near _ _ _ _ _ _ _ _ k); auto.
Qed.
Print Assumptions cached_answer.

Lemma robot_v_key v : turn_key (robot_v v) 1 0 0 = Ok [1000; 300; 1000; 0; 0]%Z.
Proof.
  unfold turn_key, rb_getMaxCurv, rb_getMaxDiffCurv, robot_v. cbn [rb_max_icc rb_diff_curv mapM].
  rewrite (milli_whole 1000 1), (milli_whole 300 (3 / 10)), (milli_whole 0 0) by (try lra; lia). reflexivity.
Qed.

Lemma cached_straight v : createTurnIfNotCached (straight 1) turner_new (robot_v v) 1 0 0 =
  Ok ([mkPS (N := RNum) (mkPoint (N := RNum) 0 0 0) 0 1 1 2 v; mkPS (N := RNum) (mkPoint (N := RNum) 1 0 0) 0 0 1 2 v],
      mkTurner [([1000; 300; 1000; 0; 0]%Z, [mkPS (N := RNum) (mkPoint (N := RNum) 0 0 0) 0 1 1 2 v; mkPS (N := RNum) (mkPoint (N := RNum) 1 0 0) 0 0 1 2 v])] (1 / 100) true).
Proof. unfold createTurnIfNotCached. rewrite robot_v_key. reflexivity. Qed.

Example cached_answer_ex : exists g t', createTurnIfNotCached (straight 1) turner_new (robot_v 1) 1 0 0 = Ok (g, t') /\
  straight 1 (robot_v 1) (disc_after []) 1 0 0 = Ok g.
Proof.
  do 2 eexists. split; [apply cached_straight|].
  destruct (cached_answer (straight 1) [] turner_new (robot_v 1) 1 0 0 _ _ eq_refl (cached_straight 1)) as [H|(pre & o & post & _ & _ & _ & _ & E & _)]; [exact H|].
  destruct pre; discriminate E.
Qed.

(** C53 refuted: the key has no velocity (and no discretization), so after asking for a
    robot with turning velocity 1 the answer for one with velocity 2 has velocity 1,
    although the generator would have used 2. *)
Theorem cache_transparent_refuted : exists simple ops t rb d sa ea g t',
  foldM (turn_step simple) ops turner_new = Ok t /\ createTurnIfNotCached simple t rb d sa ea = Ok (g, t') /\
  simple rb (t_disc t) d sa ea <> Ok g /\
  (exists s : rstate, In s g /\ ps_vel s = 1) /\ rb_getTurnVel RNum rb = 2.
Proof.
  exists (straight 1), [OpCached (robot_v 1) 1 0 0]. eexists. exists (robot_v 2), 1, 0, 0. do 2 eexists.
  split; [cbn [foldM turn_step]; rewrite cached_straight; cbn [bind snd]; reflexivity|].
  split; [unfold createTurnIfNotCached; rewrite robot_v_key; reflexivity|].
  split; [|split; [eexists; split; [left; reflexivity|reflexivity]|reflexivity]].
  unfold straight, robot_v, rb_getTurnVel. cbn [rb_turn_vel]. intro H. injection H. intros. lra.
Qed.
Print Assumptions cache_transparent_refuted.

(** Nor the discretization: changing it has no effect on a stored turn. *)
Theorem cache_discretization_refuted : exists simple ops t rb d sa ea g t',
  foldM (turn_step simple) ops turner_new = Ok t /\ createTurnIfNotCached simple t rb d sa ea = Ok (g, t') /\
  simple rb (t_disc t) d sa ea <> Ok g /\ t_disc t = 5 /\ simple rb (1 / 100) d sa ea = Ok g.
Proof.
  set (gen := fun (rb : robot RNum) (disc d sa ea : R) => Ok [mkPS (N := RNum) (mkPoint (N := RNum) 0 0 0) sa disc 1 2 1]).
  exists gen, [OpCached (robot_v 1) 1 0 0; OpDisc 5]. eexists. exists (robot_v 1), 1, 0, 0. do 2 eexists.
  split. { cbn [foldM turn_step]. unfold createTurnIfNotCached. rewrite robot_v_key. cbn [bind snd cache_find t_cache turner_new gen t_disc foldM turn_step t_setDiscretization t_using]. reflexivity. }
  split; [unfold createTurnIfNotCached; rewrite robot_v_key; reflexivity|].
  split; [|split; reflexivity]. unfold gen. cbn [t_disc]. intro H. injection H. intros. lra.
Qed.
Print Assumptions cache_discretization_refuted.

(** C123 refuted: a robot whose minimum turning radius was set to 0 has curvature
    limit 10^7, and the conversion of 1000 times that to int is undefined. *)
Theorem cached_turn_zero_radius_refuted : forall simple t (rb : robot RNum) d sa ea,
  createTurnIfNotCached simple t (rb_setMinTurningRadius RNum rb 0) d sa ea = UB.
Proof.
  intros simple t rb d sa ea. unfold createTurnIfNotCached, turn_key, rb_getMaxCurv, rb_setMinTurningRadius. cbn [rb_max_icc mapM].
  assert (E : milli (ndiv RNum (nofZ RNum 1) (nadd RNum (nabs RNum 0) (rb_eps RNum))) = UB); [|rewrite E; reflexivity].
  change (milli (1 / (Rabs 0 + 1 / 10000000)) = UB).
  assert (V : 1 / (Rabs 0 + 1 / 10000000) = 10000000) by (rewrite Rabs_R0; field).
  rewrite V. unfold milli. replace (1000 * 10000000) with (IZR 10000000000) by lra.
  assert (T : Rtrunc (IZR 10000000000) = 10000000000%Z). { unfold Rtrunc. destruct (Rle_dec 0 (IZR 10000000000)); [|lra]. apply floor_unique. lra. }
  rewrite T. reflexivity.
Qed.
Print Assumptions cached_turn_zero_radius_refuted.

(** C124.  When a turn is accepted. *)
Theorem turn_valid : forall (path : list rstate) d ea m rot,
  (path = [] -> isTurnValid path d ea m rot = UB) /\
  (forall pre (e : rstate) (x : pt), path = pre ++ [e] -> leads_to e (ps_len e) x ->
    exists v, isTurnValid path d ea m rot = Ok v /\
     (v = true <-> (forall s : rstate, In s path -> - m <= py (ps_point s)) /\ 1 - rot <= cos (ps_angle e - ea) /\
        Rabs (px x - d) < m /\ Rabs (py x) < m)).
Proof.
  intros path d ea m rot. split; [intros ->; reflexivity|]. intros pre e x -> [Lx Ly]. unfold isTurnValid.
  destruct (existsb (fun s : rstate => Rltb (py (ps_point s)) (- m)) (pre ++ [e])) eqn:E.
  - exists false. split; [reflexivity|]. split; [discriminate|]. intros (H & _). apply existsb_exists in E. destruct E as (s & Hin & Hs).
    specialize (H s Hin). unfold Rltb in Hs. destruct (Rlt_dec (py (ps_point s)) (- m)); [lra|discriminate].
  - unfold path_atEnd. rewrite vec_back_last. cbn [bind]. eexists. split; [reflexivity|]. 
    assert (Q : px (ps_atEnd RNum cos sin e) = px x /\ py (ps_atEnd RNum cos sin e) = py x).
    { unfold ps_atEnd, p_getPointFromAngle. cbn [px py]. rewrite Lx, Ly.
      assert (Q1 : forall u l z c : R, u + l * z * c = u + z * l * c) by (intros; ring). split; apply Q1. }
    destruct Q as [-> ->]. rewrite !andb_true_iff. unfold Rltb, Rleb. 
    destruct (Rle_dec (1 - rot) (cos (ps_angle e - ea))); destruct (Rlt_dec (Rabs (px x - d)) m); destruct (Rlt_dec (Rabs (py x)) m);
      (split; [intros [[A B] C]; try discriminate; split; auto|intros (A & B & C & D); auto; contradiction]).
    intros s Hin. destruct (Rle_dec (- m) (py (ps_point s))) as [L|L]; [auto|]. exfalso.
    assert (T : existsb (fun s : rstate => Rltb (py (ps_point s)) (- m)) (pre ++ [e]) = true).
    { apply existsb_exists. exists s. split; auto. unfold Rltb. destruct (Rlt_dec (py (ps_point s)) (- m)); auto. lra. }
    congruence.
Qed.
Print Assumptions turn_valid.

Example turn_valid_example : isTurnValid [mkPS (N := RNum) (mkPoint (N := RNum) 0 0 0) 0 3 1 2 1] 3 0 (1 / 20) (1 / 10) = Ok true.
Proof.
  destruct (turn_valid [mkPS (N := RNum) (mkPoint (N := RNum) 0 0 0) 0 3 1 2 1] 3 0 (1 / 20) (1 / 10)) as [_ H].
  destruct (H [] _ (mkPoint (N := RNum) 3 0 0) eq_refl) as (v & -> & V).
  { unfold leads_to. cbn [px py ps_point ps_dir ps_angle ps_len]. rewrite cos_0, sin_0. assert (Q : 3 = 0 + 1 * 3 * 1 /\ 0 = 0 + 1 * 3 * 0) by lra. exact Q. }
  f_equal. apply V. split; [intros s [<-|[]]; simpl; lra|]. cbn [ps_angle px py].
  rewrite Rminus_0_r, cos_0. rewrite (Rminus_eq_0 3), Rabs_R0. lra.
Qed.

(** C56.  Steering states to path states: defined when every driving direction fits an
    int; one state each, with the point, heading, constant velocity, type turn, and the
    distance to the next point as length (0 for the last). *)
Theorem steer_to_path : forall curve v,
  (forall r, steerStatesToPath curve v = Ok r -> List.length r = List.length curve /\
     forall i (s : rstate), nth_error r i = Some s -> exists c, nth_error curve i = Some c /\
       ps_point s = mkPoint (N := RNum) (st_x c) (st_y c) 0 /\ ps_angle s = st_theta c /\ ps_type s = 2%Z /\ ps_vel s = v /\
       (st_d c = 1 -> ps_dir s = 1%Z) /\ (st_d c = -1 -> ps_dir s = (-1)%Z) /\
       (forall c', nth_error curve (S i) = Some c' -> ps_len s = R_sqrt.sqrt ((st_x c - st_x c') * (st_x c - st_x c') + (st_y c - st_y c') * (st_y c - st_y c'))) /\
       (S i = List.length curve -> ps_len s = 0)) /\
  ((forall c, In c curve -> Rabs (st_d c) <= 1) -> exists r, steerStatesToPath curve v = Ok r).
Proof.
  assert (T : forall z : Z, (0 <= z)%Z -> Rtrunc (IZR z) = z).
  { intros z Hz. unfold Rtrunc. assert (0 <= IZR z) by (apply IZR_le; lia). destruct (Rle_dec 0 (IZR z)); [|lra]. apply floor_unique. lra. }
  intros curve v. destruct (steer_prefix curve v (List.length curve) (Nat.le_refl _)) as [A B]. split.
  - intros r H. destruct (A r H) as [L N]. split; [exact L|]. intros i s Hs. destruct (N i s Hs) as (c & Ec & E1 & E2 & E3 & E4 & E5 & E6).
    exists c. repeat (split; [assumption|]). split; [|split; [|split]].
    + intro Hd. rewrite Hd in E3. change 1 with (IZR 1) in E3. rewrite T in E3 by lia. cbn in E3. congruence.
    + intro Hd. rewrite Hd in E3. rewrite (trunc_neg (-1)) in E3 by lra. replace (- -1) with (IZR 1) in E3 by lra. rewrite T in E3 by lia. cbn in E3. congruence.
    + intros c' Hc'. rewrite Hc' in E6. exact E6.
    + intro Hi. replace (nth_error curve (S i)) with (@None steer_state) in E6; [exact E6|]. symmetry. apply nth_error_None. lia.
  - intro HD. apply B. intros c Hc. specialize (HD c Hc). exists (Rtrunc (st_d c)). unfold to_int.
    assert (Q : (-1 <= Rtrunc (st_d c) <= 1)%Z).
    { destruct (Rlt_le_dec (st_d c) 0) as [N|N].
      - rewrite (trunc_neg _ N). destruct (trunc_spec (- st_d c) ltac:(lra)) as (X & Y & _). rewrite Rabs_left in HD by lra.
        assert (Rtrunc (- st_d c) <= 1)%Z by (apply le_IZR; lra). lia.
      - destruct (trunc_spec (st_d c) N) as (X & Y & _). rewrite Rabs_right in HD by lra. assert (Rtrunc (st_d c) <= 1)%Z by (apply le_IZR; lra). lia. }
    replace (Z.leb (-2147483648) (Rtrunc (st_d c))) with true by (symmetry; apply Z.leb_le; lia).
    replace (Z.leb (Rtrunc (st_d c)) 2147483647) with true by (symmetry; apply Z.leb_le; lia). reflexivity.
Qed.
Print Assumptions steer_to_path.

Lemma chord_length (r : list rstate) :
  (forall i (s s' : rstate), nth_error r i = Some s -> nth_error r (S i) = Some s' -> ps_len s = p_distance (ps_point s) (ps_point s')) ->
  (forall s : rstate, nth_error r (List.length r - 1) = Some s -> ps_len s = 0) ->
  path_length RNum r = len p_distance (map (@ps_point RNum) r).
Proof.
  rewrite length_sum. induction r as [|s r IH]; intros A B; [reflexivity|]. cbn [map]. rewrite rsum_cons. unfold al at 1. destruct r as [|s' r].
  - cbn [map len]. change (rsum []) with 0. rewrite (B s eq_refl), Rabs_R0. lra.
  - rewrite IH.
    + cbn [map len]. rewrite (A 0%nat s s' eq_refl eq_refl). rewrite Rabs_right; [reflexivity|]. apply Rle_ge. unfold p_distance. apply sqrt_pos.
    + intros i x x' Hx Hx'. apply (A (S i)); auto.
    + intros x Hx. apply B. cbn [List.length] in *. replace (S (S (List.length r)) - 1)%nat with (S (S (List.length r) - 1))%nat by lia. exact Hx.
Qed.

(** The length of the path is that of the polyline through the points. *)
Theorem steer_length : forall curve v r, steerStatesToPath curve v = Ok r ->
  path_length RNum r = len p_distance (map (fun c => mkPoint (N := RNum) (st_x c) (st_y c) 0) curve).
Proof.
  intros curve v r H. destruct (steer_to_path curve v) as [A _]. destruct (A r H) as [L N]. clear A.
  replace (map (fun c => mkPoint (N := RNum) (st_x c) (st_y c) 0) curve) with (map (@ps_point RNum) r).
  - apply chord_length.
    + intros i s s' Hs Hs'. destruct (N i s Hs) as (c & _ & E1 & _ & _ & _ & _ & _ & E2 & _). destruct (N (S i) s' Hs') as (c' & Hc' & E3 & _).
      rewrite (E2 c' Hc'), E1, E3. reflexivity.
    + intros s Hs. destruct (N _ s Hs) as (c & Hc & _ & _ & _ & _ & _ & _ & _ & E). apply E. 
      assert (List.length r - 1 < List.length r)%nat by (apply nth_error_Some; congruence). lia.
  - apply nth_ext with (d := mkPoint (N := RNum) 0 0 0) (d' := mkPoint (N := RNum) 0 0 0); [rewrite !map_length; auto|].
    intros i Hi. rewrite map_length in Hi. destruct (nth_error r i) as [s|] eqn:Hs; [|apply nth_error_None in Hs; lia].
    destruct (N i s Hs) as (c & Hc & E & _). 
    rewrite (nth_error_nth _ _ _ (map_nth_error (@ps_point RNum) i r Hs)).
    rewrite (nth_error_nth _ _ _ (map_nth_error (fun c => mkPoint (N := RNum) (st_x c) (st_y c) 0) i curve Hc)). exact E.
Qed.
Print Assumptions steer_length.

Example steer_to_path_example : exists r, steerStatesToPath [mkSteer 0 0 0 1; mkSteer 3 4 1 (-1)] 2 = Ok r /\
  exists s : rstate, nth_error r 0 = Some s /\ ps_len s = 5 /\ ps_dir s = 1%Z.
Proof.
  destruct (steer_to_path [mkSteer 0 0 0 1; mkSteer 3 4 1 (-1)] 2) as [A B]. destruct B as [r Hr].
  { intros c [<-|[<-|[]]]; cbn [st_d]; [rewrite Rabs_R1; lra|]. rewrite Rabs_left; lra. }
  exists r. split; [exact Hr|]. destruct (A r Hr) as [L N]. destruct r as [|s r]; [discriminate|]. exists s. split; [reflexivity|].
  destruct (N 0%nat s eq_refl) as (c & E & _ & _ & _ & _ & D & _ & X & _). injection E as <-. split; [|apply D; reflexivity].
  rewrite (X _ eq_refl). cbn [st_x st_y]. replace ((0 - 3) * (0 - 3) + (0 - 4) * (0 - 4)) with (5 * 5) by ring. apply sqrt_square. lra.
Qed.

(** C125 refuted: a steering state with driving direction 0 (a control of length 0)
    gives a path state whose direction is neither of the enumerators. *)
Theorem steer_direction_refuted : exists curve v r, steerStatesToPath curve v = Ok r /\
  exists s : rstate, In s r /\ ps_dir s <> DIR_FORWARD /\ ps_dir s <> DIR_BACKWARD.
Proof.
  exists [mkSteer 0 0 0 0], 1. eexists. split.
  - unfold steerStatesToPath. cbn [List.length seq foldM vec_index nth_error bind]. unfold steer_dist. cbn [Nat.ltb Nat.leb List.length Nat.add bind st_d].
    assert (T : Rtrunc 0 = 0%Z). { unfold Rtrunc. destruct (Rle_dec 0 0); [|lra]. apply floor_unique. lra. }
    rewrite T. reflexivity.
  - eexists. split; [left; reflexivity|]. cbn [ps_dir]. split; discriminate.
Qed.
Print Assumptions steer_direction_refuted.

(** C126.  A loop is a single control of more than 0.9 turns, a net turn of more than 0.9
    or turns of more than 1.5 in total. *)
Theorem loop_meaning : forall controls, loop_detected controls = true <->
  (exists c, In c controls /\ 9 / 10 < Rabs (full_turns c)) \/ 9 / 10 < Rabs (rsum (map full_turns controls)) \/
  15 / 10 < rsum (map (fun c => Rabs (full_turns c)) controls).
Proof. intro controls. unfold loop_detected. rewrite loop_from_iff, !Rplus_0_l. reflexivity. Qed.
Print Assumptions loop_meaning.

Example loop_example : loop_detected [(2 * PI, 1 / 2); (2 * PI, - (1 / 2))] = false /\ loop_detected [(2 * PI, 1 / 2); (PI, 1)] = true.
Proof.
  assert (P := PI_RGT_0). assert (F : forall x y : R, full_turns (x * PI, y) = x * y / 2) by (intros; unfold full_turns; cbn [fst snd]; field; lra).
  split.
  - apply not_true_iff_false. rewrite loop_meaning. intros [(c & [<-|[<-|[]]] & L)|[L|L]].
    + rewrite F in L. rewrite Rabs_right in L; lra.
    + rewrite F in L. rewrite Rabs_left in L; lra.
    + cbn [map] in L. rewrite !F in L. rewrite !rsum_cons in L. change (rsum []) with 0 in L.
      replace (2 * (1 / 2) / 2 + (2 * - (1 / 2) / 2 + 0)) with 0 in L by field. rewrite Rabs_R0 in L. lra.
    + cbn [map] in L. rewrite !F in L. rewrite !rsum_cons in L. change (rsum []) with 0 in L.
      rewrite (Rabs_right (2 * (1 / 2) / 2)), (Rabs_left (2 * - (1 / 2) / 2)) in L by lra. lra.
  - apply loop_meaning. right. left. cbn [map]. rewrite !rsum_cons. change (rsum []) with 0. rewrite F.
    replace (full_turns (PI, 1)) with (1 / 2) by (unfold full_turns; cbn [fst snd]; field; lra). rewrite Rabs_right; lra.
Qed.

(** C55.  The retry loop makes at most 22 attempts: it stops at the first curvature and
    sharpness limits without a loop, or at the 22nd, which divide the robot's by at most
    2.05 and 5.2; the limits never exceed the robot's. *)
Theorem retry_bounded : forall gc gp fl (rb : robot RNum) disc fuel, (22 <= fuel)%nat ->
  0 <= rb_max_icc rb -> 0 <= rb_diff_curv rb ->
  exists n k sg, (n <= 21)%nat /\
    (k * (1 + INR n / 20) = rb_max_icc rb /\ sg * (1 + INR n / 5) = rb_diff_curv rb) /\
    (rb_max_icc rb / (41 / 20) <= k <= rb_max_icc rb /\ rb_diff_curv rb / (26 / 5) <= sg <= rb_diff_curv rb) /\
    (forall j kj sj, (j < n)%nat -> kj * (1 + INR j / 20) = rb_max_icc rb -> sj * (1 + INR j / 5) = rb_diff_curv rb ->
       fl = true /\ loop_detected (gc kj sj disc) = true) /\
    (n = 21%nat \/ fl = false \/ loop_detected (gc k sg disc) = false) /\
    cc_loop gc gp fuel fl rb disc 0 = (do p <- steerStatesToPath (gp k sg disc) (rb_getTurnVel RNum rb); Ok (n, p)).
Proof.
  intros gc gp fl rb disc fuel Hf Hk Hs. destruct (cc_loop_raw gc gp fl rb disc fuel 0 ltac:(lia) ltac:(lia)) as (n & [_ Hn] & A & B & C).
  assert (I0 : 0 <= INR n) by apply pos_INR. assert (I1 : INR n <= 21) by (apply le_INR in Hn; simpl in Hn; lra).
  assert (Q : forall x y : R, 0 <= x -> 1 <= y -> x / y <= x).
  { intros x y Hx Hy. apply (Rmult_le_reg_r y); [lra|]. unfold Rdiv. rewrite Rmult_assoc, Rinv_l by lra. nra. }
  assert (Q' : forall x y z : R, 0 <= x -> 1 <= y <= z -> x / z <= x / y).
  { intros x y z Hx Hy. unfold Rdiv. apply Rmult_le_compat_l; [auto|]. apply Rinv_le_contravar; lra. }
  exists n, (rb_max_icc rb / (1 + 5 / 100 * INR n)), (rb_diff_curv rb / (1 + 2 / 10 * INR n)). split; [exact Hn|].
  split. { split; field; lra. }
  split. { split; split; try (apply Q; lra); apply Q'; lra. }
  split. { intros j kj sj Hj Ek Es. assert (0 <= INR j) by apply pos_INR.
    replace kj with (rb_max_icc rb / (1 + 5 / 100 * INR j)). 2: { rewrite <- Ek. field. lra. }
    replace sj with (rb_diff_curv rb / (1 + 2 / 10 * INR j)). 2: { rewrite <- Es. field. lra. }
    apply (A j). lia. }
  split; [|exact C]. destruct B as [B|B]; [auto|]. right. destruct fl; [|auto]. right.
  destruct (loop_detected (gc (rb_max_icc rb / (1 + 5 / 100 * INR n)) (rb_diff_curv rb / (1 + 2 / 10 * INR n)) disc)); [|auto]. exfalso. apply B. auto.
Qed.
Print Assumptions retry_bounded.

Example retry_example : exists p, cc_loop (fun _ _ _ => [(PI, 2)]) (fun _ _ _ => [mkSteer 0 0 0 1]) 22 true (robot_v 1) 1 0 = Ok (21%nat, p).
Proof.
  destruct (retry_bounded (fun _ _ _ => [(PI, 2)]) (fun _ _ _ => [mkSteer 0 0 0 1]) true (robot_v 1) 1 22 ltac:(lia)) as (n & k & sg & Hn & _ & _ & _ & B & C);
    [simpl; lra|simpl; lra|].
  assert (L : loop_detected [(PI, 2)] = true).
  { apply loop_meaning. left. exists (PI, 2). split; [left; auto|]. unfold full_turns. cbn [fst snd]. replace (PI * 2 / (2 * PI)) with 1 by (field; pose proof PI_RGT_0; lra). rewrite Rabs_R1. lra. }
  destruct B as [->|[B|B]]; [|discriminate|congruence]. rewrite C.
  destruct (steer_to_path [mkSteer 0 0 0 1] (rb_getTurnVel RNum (robot_v 1))) as [_ H]. destruct H as [p ->]; [intros c [<-|[]]; cbn [st_d]; rewrite Rabs_R1; lra|].
  eexists. reflexivity.
Qed.
