(** Proofs about turns. *)
From Coq Require Import List Arith ZArith Bool Reals Lia Lra.
From Verif Require Import Outcome Num ListAux Point_Model Angle_Model Angle_Spec Angle_Proofs Angle_Proofs2 Angle_Props
  Path_Model Path_Spec Path_Proofs Path_Proofs2 Objective_Spec Objective_Proofs2 SwathGen_Proofs2 Robot_Model Turning_Model Turning_Spec.
Import ListNotations.
Open Scope R_scope.

Lemma congr_add a b c d : congruent a b -> congruent c d -> congruent (a + c) (b + d).
Proof. intros [k ->] [m ->]. exists (k + m)%Z. rewrite plus_IZR. ring. Qed.
Lemma congr_opp a b : congruent a b -> congruent (- a) (- b).
Proof. intros [k ->]. exists (- k)%Z. rewrite opp_IZR. ring. Qed.

Lemma mod2_id a : 0 <= a < 2 * PI -> mod_2pi a = a.
Proof. intro H. apply mod2_unique; [auto|apply congruent_refl]. Qed.

Lemma polar_xy (p q : rpoint) : let v := p_sub RNum q p in
  px p + p_distance p q * cos (angleFromPoint v) = px q /\ py p + p_distance p q * sin (angleFromPoint v) = py q.
Proof.
  intro v. destruct (polar_round_trip p q) as [[A B] _]. split; [exact A|exact B].
Qed.

Lemma normal_turn_raw p a q b d rot sa ea inv :
  transformToNormalTurn p a q b = (d, rot, sa, ea, inv) ->
  let sg := if inv then -1 else 1 in
  d = R_sqrt.sqrt (dist2 p q) /\ 0 <= rot < 2 * PI /\ 0 <= sa <= PI /\ 0 <= ea < 2 * PI /\
  at_xy p (placing p rot sg (mkPoint (N := RNum) 0 0 0)) /\ at_xy q (placing p rot sg (mkPoint (N := RNum) d 0 0)) /\
  congruent (rot + sg * sa) a /\ congruent (rot + sg * ea) b.
Proof.
  intros H sg. unfold transformToNormalTurn in H. set (v := p_sub RNum q p) in *.
  assert (Erot : mod_2pi (angleFromPoint v) = angleFromPoint v).
  { apply mod2_id. rewrite angleFromPoint_eq. apply mod2_range. }
  rewrite Erot in H.
  assert (Q : forall sg', at_xy p (placing p (angleFromPoint v) sg' (mkPoint (N := RNum) 0 0 0)) /\
              at_xy q (placing p (angleFromPoint v) sg' (mkPoint (N := RNum) (p_distance p q) 0 0))).
  { intro sg'. destruct (polar_xy p q) as [A B]. fold v in A, B.
    assert (Q0 : forall x y c s z : R, x = x + 0 * c - z * 0 * s /\ y = y + 0 * s + z * 0 * c) by (intros; split; ring).
    unfold at_xy, placing. cbn [px py fst snd]. split; split.
    - apply (Q0 (px p) (py p)).
    - apply (Q0 (px p) (py p) (cos (angleFromPoint v)) (sin (angleFromPoint v)) sg').
    - rewrite <- A. assert (Q1 : forall x c s z d : R, x + d * c = x + d * c - z * 0 * s) by (intros; ring). apply Q1.
    - rewrite <- B. assert (Q1 : forall x c s z d : R, x + d * s = x + d * s + z * 0 * c) by (intros; ring). apply Q1. }
  assert (R0 : 0 <= angleFromPoint v < 2 * PI) by (rewrite angleFromPoint_eq; apply mod2_range).
  set (u := mod_2pi (a - angleFromPoint v)) in *. set (w := mod_2pi (b - angleFromPoint v)) in *.
  assert (Ru : 0 <= u < 2 * PI) by apply mod2_range. assert (Rw : 0 <= w < 2 * PI) by apply mod2_range.
  assert (Cu : congruent (angleFromPoint v + u) a).
  { replace a with (angleFromPoint v + (a - angleFromPoint v)) at 1 by ring. apply congr_add; [apply congruent_refl|apply mod2_congr]. }
  assert (Cw : congruent (angleFromPoint v + w) b).
  { replace b with (angleFromPoint v + (b - angleFromPoint v)) at 1 by ring. apply congr_add; [apply congruent_refl|apply mod2_congr]. }
  assert (N : forall x y, congruent (angleFromPoint v + x) y -> congruent (angleFromPoint v + -1 * mod_2pi (- x)) y).
  { intros x y C. eapply congruent_trans; [|exact C]. apply congr_add; [apply congruent_refl|].
    replace (-1 * mod_2pi (- x)) with (- mod_2pi (- x)) by ring. replace x with (- - x) at 2 by ring.
    apply congr_opp, mod2_congr. }
  destruct (Rlt_dec PI u) as [L|L]; injection H as <- <- <- <- <-; subst sg; cbv iota.
  - assert (M : mod_2pi (- u) = 2 * PI - u).
    { apply mod2_unique; [lra|]. exists 1%Z. simpl. ring. }
    repeat split; try apply (Q (-1)); try lra; try (rewrite M; lra); try apply mod2_range.
    + apply (N u a Cu).
    + apply (N w b Cw).
  - repeat split; try apply (Q 1); try lra; rewrite Rmult_1_l; auto.
Qed.

Lemma placing_isometry c a sg : sg = 1 \/ sg = -1 -> isometry (placing c a sg).
Proof.
  intros Hs q q'. unfold placing, dist2. cbn [fst snd]. pose proof (sin2_cos2 a) as H. unfold Rsqr in H.
  assert (Q : forall cx cy x y x' y' co si : R, si * si + co * co = 1 ->
    (cx + x * co - sg * y * si - (cx + x' * co - sg * y' * si)) * (cx + x * co - sg * y * si - (cx + x' * co - sg * y' * si)) +
    (cy + x * si + sg * y * co - (cy + x' * si + sg * y' * co)) * (cy + x * si + sg * y * co - (cy + x' * si + sg * y' * co)) =
    (x - x') * (x - x') + (y - y') * (y - y')).
  { intros cx cy x y x' y' co si E.
    transitivity ((x - x') * (x - x') * (si * si + co * co) + sg * sg * ((y - y') * (y - y')) * (si * si + co * co)); [ring|].
    rewrite E. destruct Hs as [-> | ->]; ring. }
  exact (Q (px c) (py c) (px q) (py q) (px q') (py q') (cos a) (sin a) H).
Qed.

Lemma place_moved p rot (inv : bool) (s : rstate) :
  moved p rot (if inv then -1 else 1) s (turn_place rot p (if inv then turn_mirror s else s)).
Proof.
  unfold moved, at_xy, placing, turn_place, turn_mirror, rotateFromPoint, p_rotateFromPoint, same_drive.
  assert (Q : forall x y cx cy c t : R,
    (x - 0) * c - (y - 0) * t + 0 + cx = cx + x * c - 1 * y * t /\ (x - 0) * t + (y - 0) * c + 0 + cy = cy + x * t + 1 * y * c /\
    (x - 0) * c - (- y - 0) * t + 0 + cx = cx + x * c - -1 * y * t /\ (x - 0) * t + (- y - 0) * c + 0 + cy = cy + x * t + -1 * y * c)
    by (intros; repeat split; ring).
  specialize (Q (px (ps_point s)) (py (ps_point s)) (px p) (py p) (cos rot) (sin rot)). destruct Q as (Q1 & Q2 & Q3 & Q4).
  destruct inv; cbn [ps_point ps_angle ps_len ps_dir ps_type ps_vel px py pz p_add fst snd]; (split; [split; assumption|]).
  - split; [apply Rplus_0_l|]. split; [apply mod2_range|]. split; [|auto].
    eapply congruent_trans; [apply mod2_congr|]. rewrite Rplus_comm. apply congr_add; [apply congruent_refl|].
    eapply congruent_trans; [apply mod2_congr|]. replace (-1 * ps_angle s) with (- ps_angle s) by ring. apply congruent_refl.
  - split; [apply Rplus_0_l|]. split; [apply mod2_range|]. split; [|auto].
    eapply congruent_trans; [apply mod2_congr|]. rewrite Rplus_comm, Rmult_1_l. apply congruent_refl.
Qed.


(** The two ends put on the wanted points. *)
Definition snap (c : rpoint) (s : rstate) : rstate :=
  if Rlt_dec (p_distance (ps_point s) c) max_error_dist then ps_with_point c s else s.

Lemma snap_snapped c s : snapped c s (snap c s).
Proof.
  unfold snap, snapped, same_kind. change (p_distance (ps_point s) c) with (R_sqrt.sqrt (dist2 (ps_point s) c)). unfold max_error_dist.
  destruct (Rlt_dec (R_sqrt.sqrt (dist2 (ps_point s) c)) (13421773 / 268435456)) as [L|L]; (split; [repeat split|]); (split; [reflexivity|]); split; intro H; try lra; reflexivity.
Qed.

Lemma vec_back_last {A} (l : list A) (e : A) : vec_back (l ++ [e]) = Ok e.
Proof. unfold vec_back. rewrite rev_app_distr. reflexivity. Qed.

Lemma vec_set_last {A} (l : list A) (e a : A) : vec_set (l ++ [e]) (length (l ++ [e]) - 1) a = Ok (l ++ [a]).
Proof.
  rewrite app_length. cbn [length]. replace (length l + 1 - 1)%nat with (length l) by lia.
  unfold vec_set. rewrite nth_error_app2 by lia. rewrite Nat.sub_diag. cbn [nth_error].
  rewrite firstn_app, firstn_all, Nat.sub_diag. cbn [firstn]. rewrite app_nil_r. rewrite skipn_all2; [reflexivity|]. rewrite app_length. cbn [length]. lia.
Qed.

Lemma correct_ends (s : rstate) mid (e : rstate) p q :
  correctPath (s :: mid ++ [e]) p q = Ok (snap p s :: mid ++ [snap q e]).
Proof.
  unfold correctPath. replace (Nat.ltb (length (s :: mid ++ [e])) 2) with false.
  2: { symmetry. apply Nat.ltb_ge. simpl. rewrite app_length. simpl. lia. }
  cbn [vec_index nth_error bind].
  assert (E : (if Rlt_dec (p_distance (ps_point s) p) max_error_dist then vec_set (s :: mid ++ [e]) 0 (ps_with_point p s) else Ok (s :: mid ++ [e]))
              = Ok (snap p s :: mid ++ [e])).
  { unfold snap. destruct (Rlt_dec (p_distance (ps_point s) p) max_error_dist); reflexivity. }
  rewrite E. cbn [bind]. change (snap p s :: mid ++ [e]) with ((snap p s :: mid) ++ [e]). rewrite vec_back_last. cbn [bind].
  rewrite vec_set_last. change (snap p s :: mid ++ [snap q e]) with ((snap p s :: mid) ++ [snap q e]).
  generalize (snap p s). intro s'. unfold snap. destruct (Rlt_dec (p_distance (ps_point e) q) max_error_dist); reflexivity.
Qed.

Lemma two_ends {A} (l : list A) : (2 <= length l)%nat -> exists s mid e, l = s :: mid ++ [e].
Proof.
  destruct l as [|s l]; simpl; [lia|]. intro H. destruct l as [|x l] using rev_ind; [simpl in H; lia|]. exists s, l, x. reflexivity.
Qed.

Lemma create_turn_raw simple t rb p a q b r t' :
  createTurn simple t rb p a q b = Ok (r, t') ->
  exists d rot sa ea inv g, transformToNormalTurn p a q b = (d, rot, sa, ea, inv) /\
    (if t_using t then createTurnIfNotCached simple t rb d sa ea = Ok (g, t') else simple rb (t_disc t) d sa ea = Ok g /\ t' = t) /\
    ((length g <= 1)%nat -> r = []) /\
    ((2 <= length g)%nat -> exists s mid e s1 mid1 e1 s2 e2, g = s :: mid ++ [e] /\ r = s2 :: mid1 ++ [e2] /\
       Forall2 (moved p rot (if inv then -1 else 1)) (s :: mid ++ [e]) (s1 :: mid1 ++ [e1]) /\ snapped p s1 s2 /\ snapped q e1 e2).
Proof.
  unfold createTurn. destruct (transformToNormalTurn p a q b) as [[[[d rot] sa] ea] inv]. intro H.
  exists d, rot, sa, ea, inv.
  assert (E : exists g, (if t_using t then createTurnIfNotCached simple t rb d sa ea = Ok (g, t') else simple rb (t_disc t) d sa ea = Ok g /\ t' = t) /\
     (if Nat.leb (length g) 1 then Ok ([], t') else
      do path <- correctPath (map (turn_place rot p) (if inv then map turn_mirror g else g)) p q; Ok (path, t')) = Ok (r, t')).
  { destruct (t_using t).
    - destruct (createTurnIfNotCached simple t rb d sa ea) as [[g t1]| | |]; try discriminate. cbn [bind] in H. exists g.
      destruct (Nat.leb (length g) 1); [injection H as <- <-; auto|].
      destruct (correctPath (map (turn_place rot p) (if inv then map turn_mirror g else g)) p q); try discriminate. cbn [bind] in *.
      injection H as <- <-. auto.
    - destruct (simple rb (t_disc t) d sa ea) as [g| | |]; try discriminate. cbn [bind] in H. exists g.
      destruct (Nat.leb (length g) 1); [injection H as <- <-; auto|].
      destruct (correctPath (map (turn_place rot p) (if inv then map turn_mirror g else g)) p q); try discriminate. cbn [bind] in *.
      injection H as <- <-. auto. }
  destruct E as (g & E1 & E2). exists g. split; [reflexivity|]. split; [exact E1|]. split.
  - intro L. apply Nat.leb_le in L. rewrite L in E2. injection E2 as <-. reflexivity.
  - intro L. replace (Nat.leb (length g) 1) with false in E2 by (symmetry; apply Nat.leb_gt; lia).
    destruct (two_ends g L) as (s & mid & e & ->).
    assert (M : map (turn_place rot p) (if inv then map turn_mirror (s :: mid ++ [e]) else s :: mid ++ [e]) =
                turn_place rot p (if inv then turn_mirror s else s) :: map (fun x => turn_place rot p (if inv then turn_mirror x else x)) mid ++
                [turn_place rot p (if inv then turn_mirror e else e)]).
    { destruct inv; cbn [map]; rewrite !map_app; cbn [map]; [rewrite map_map|]; reflexivity. }
    rewrite M, correct_ends in E2. cbn [bind] in E2. injection E2 as <-.
    exists s, mid, e, (turn_place rot p (if inv then turn_mirror s else s)), (map (fun x => turn_place rot p (if inv then turn_mirror x else x)) mid),
      (turn_place rot p (if inv then turn_mirror e else e)).
    do 2 eexists. split; [reflexivity|]. split; [reflexivity|]. split; [|split; apply snap_snapped].
    constructor; [apply place_moved|]. apply Forall2_app; [|constructor; [apply place_moved|constructor]].
    clear. induction mid as [|x mid IH]; constructor; auto. apply place_moved.
Qed.

(** The cache key. *)
Lemma milli_near x y k : milli x = Ok k -> milli y = Ok k -> within_milli x y.
Proof.
  unfold milli, to_int. intros Hx Hy.
  destruct (Z.leb (-2147483648) (Rtrunc (1000 * x)) && Z.leb (Rtrunc (1000 * x)) 2147483647)%bool; [|discriminate].
  destruct (Z.leb (-2147483648) (Rtrunc (1000 * y)) && Z.leb (Rtrunc (1000 * y)) 2147483647)%bool; [|discriminate].
  injection Hx as Hx. injection Hy as Hy. unfold within_milli.
  assert (T : forall z, (0 <= z -> (0 <= Rtrunc z)%Z /\ IZR (Rtrunc z) <= z < IZR (Rtrunc z) + 1) /\
                        (z < 0 -> (Rtrunc z <= 0)%Z /\ IZR (Rtrunc z) - 1 < z <= IZR (Rtrunc z))).
  { intro z. split; intro L; [apply trunc_spec; auto|]. rewrite (trunc_neg z L), opp_IZR.
    destruct (trunc_spec (- z) ltac:(lra)) as (A & B). split; [lia|]. lra. }
  destruct (T (1000 * x)) as [X1 X2]. destruct (T (1000 * y)) as [Y1 Y2]. rewrite Hx in X1, X2. rewrite Hy in Y1, Y2.
  destruct (Rlt_le_dec x 0) as [Lx|Lx]; destruct (Rlt_le_dec y 0) as [Ly|Ly].
  - destruct (X2 ltac:(lra)), (Y2 ltac:(lra)). split; [apply Rabs_def1; lra|intros; lra].
  - destruct (X2 ltac:(lra)) as [A ?], (Y1 ltac:(lra)) as [B ?]. assert (k = 0)%Z by lia. subst k. split; [apply Rabs_def1; lra|intros; lra].
  - destruct (X1 ltac:(lra)) as [A ?], (Y2 ltac:(lra)) as [B ?]. assert (k = 0)%Z by lia. subst k. split; [apply Rabs_def1; lra|intros; lra].
  - destruct (X1 ltac:(lra)), (Y1 ltac:(lra)). split; [|intros _ _]; apply Rabs_def1; lra.
Qed.

Lemma key_near rb d sa ea rb' d' sa' ea' k : turn_key rb d sa ea = Ok k -> turn_key rb' d' sa' ea' = Ok k ->
  within_milli (rb_max_icc rb) (rb_max_icc rb') /\ within_milli (rb_diff_curv rb) (rb_diff_curv rb') /\
  within_milli d d' /\ within_milli sa sa' /\ within_milli ea ea'.
Proof.
  unfold turn_key, rb_getMaxCurv, rb_getMaxDiffCurv. cbn [mapM]. intros H H'.
  destruct (milli (rb_max_icc rb)) as [k1| | |] eqn:E1; try discriminate. destruct (milli (rb_diff_curv rb)) as [k2| | |] eqn:E2; try discriminate.
  destruct (milli d) as [k3| | |] eqn:E3; try discriminate. destruct (milli sa) as [k4| | |] eqn:E4; try discriminate. destruct (milli ea) as [k5| | |] eqn:E5; try discriminate.
  destruct (milli (rb_max_icc rb')) as [k1'| | |] eqn:E1'; try discriminate. destruct (milli (rb_diff_curv rb')) as [k2'| | |] eqn:E2'; try discriminate.
  destruct (milli d') as [k3'| | |] eqn:E3'; try discriminate. destruct (milli sa') as [k4'| | |] eqn:E4'; try discriminate. destruct (milli ea') as [k5'| | |] eqn:E5'; try discriminate.
  cbn [bind] in *. injection H as <-. injection H' as <- <- <- <- <-.
  repeat split; try (eapply milli_near; eassumption).
  all: first [exact (proj1 (milli_near _ _ _ E1 E1'))|exact (proj2 (milli_near _ _ _ E1 E1'))|idtac].
Qed.

Lemma find_in k c g : cache_find k c = Some g -> In (k, g) c.
Proof.
  induction c as [|[k' g'] c IH]; simpl; [discriminate|]. destruct (list_eq_dec Z.eq_dec k k') as [->|]; [intro H; injection H as <-; auto|auto].
Qed.
Lemma find_none k c : cache_find k c = None -> ~ In k (map fst c).
Proof.
  induction c as [|[k' g'] c IH]; simpl; [auto|]. destruct (list_eq_dec Z.eq_dec k k') as [->|]; [discriminate|]. intros H [E|E]; [congruence|]. apply IH; auto.
Qed.

Lemma cached_raw simple t rb d sa ea g t' : createTurnIfNotCached simple t rb d sa ea = Ok (g, t') ->
  exists k, turn_key rb d sa ea = Ok k /\
   ((In (k, g) (t_cache t) /\ t' = t) \/
    (~ In k (map fst (t_cache t)) /\ simple rb (t_disc t) d sa ea = Ok g /\ t' = mkTurner ((k, g) :: t_cache t) (t_disc t) (t_using t))).
Proof.
  unfold createTurnIfNotCached. destruct (turn_key rb d sa ea) as [k| | |]; try discriminate. cbn [bind]. intro H. exists k. split; [reflexivity|].
  destruct (cache_find k (t_cache t)) as [g0|] eqn:E.
  - injection H as <- <-. left. split; [apply find_in; auto|reflexivity].
  - destruct (simple rb (t_disc t) d sa ea) as [g0| | |]; try discriminate. cbn [bind] in H. injection H as <- <-.
    right. split; [apply find_none; auto|]. auto.
Qed.

(** What one call adds to the cache. *)
Lemma step_cache simple t o t' : turn_step simple t o = Ok t' ->
  t_disc t' = (match o with OpDisc d => d | _ => t_disc t end) /\
  (t_cache t' = t_cache t \/
   exists rb d sa ea k g, asks o rb d sa ea /\ simple rb (t_disc t) d sa ea = Ok g /\ turn_key rb d sa ea = Ok k /\
     ~ In k (map fst (t_cache t)) /\ t_cache t' = (k, g) :: t_cache t).
Proof.
  assert (C : forall rb d sa ea g t1, createTurnIfNotCached simple t rb d sa ea = Ok (g, t1) ->
    t_disc t1 = t_disc t /\ (t_cache t1 = t_cache t \/ exists k, simple rb (t_disc t) d sa ea = Ok g /\ turn_key rb d sa ea = Ok k /\
     ~ In k (map fst (t_cache t)) /\ t_cache t1 = (k, g) :: t_cache t)).
  { intros rb d sa ea g t1 H. apply cached_raw in H. destruct H as (k & K & [[_ ->] | (N & S & ->)]); [auto|]. split; [reflexivity|].
    right. exists k. auto. }
  destruct o as [rb p a q b|rb d sa ea|d|c]; cbn [turn_step]; intro H.
  - destruct (createTurn simple t rb p a q b) as [[r t1]| | |] eqn:E; try discriminate. cbn [bind snd] in H. injection H as <-.
    apply create_turn_raw in E. destruct E as (d & rot & sa & ea & inv & g & T & G & _). destruct (t_using t).
    + destruct (C _ _ _ _ _ _ G) as [A [B|(k & B)]]; (split; [exact A|]); [auto|]. right. exists rb, d, sa, ea, k, g. split; [|tauto].
      cbn [asks]. split; [reflexivity|]. exists rot, inv. exact T.
    + destruct G as [_ ->]. auto.
  - destruct (createTurnIfNotCached simple t rb d sa ea) as [[g t1]| | |] eqn:E; try discriminate. cbn [bind snd] in H. injection H as <-.
    destruct (C _ _ _ _ _ _ E) as [A [B|(k & B)]]; (split; [exact A|]); [auto|]. right. exists rb, d, sa, ea, k, g. split; [|tauto].
    cbn [asks]. auto.
  - injection H as <-. auto.
  - injection H as <-. auto.
Qed.

Lemma foldM_snoc {A B} (f : B -> A -> outcome B) l x b : foldM f (l ++ [x]) b = (do b1 <- foldM f l b; f b1 x).
Proof.
  revert b. induction l as [|y l IH]; intro b; cbn [app foldM bind].
  - destruct (f b x); reflexivity.
  - destruct (f b y); cbn [bind]; auto.
Qed.

Lemma cache_inv simple ops t : foldM (turn_step simple) ops turner_new = Ok t ->
  t_disc t = disc_after ops /\ NoDup (map fst (t_cache t)) /\
  forall k g, In (k, g) (t_cache t) -> exists pre o post rb d sa ea, ops = pre ++ o :: post /\ asks o rb d sa ea /\
    simple rb (disc_after pre) d sa ea = Ok g /\ turn_key rb d sa ea = Ok k.
Proof.
  revert t. induction ops as [|o ops IH] using rev_ind; intros t H.
  - cbn [foldM] in H. injection H as <-. split; [reflexivity|]. split; [constructor|]. intros k g [].
  - rewrite foldM_snoc in H. destruct (foldM (turn_step simple) ops turner_new) as [t1| | |]; try discriminate. cbn [bind] in H.
    destruct (IH t1 eq_refl) as (D & N & I). clear IH. destruct (step_cache _ _ _ _ H) as [D' C].
    split. { rewrite D'. unfold disc_after. rewrite fold_left_app. cbn [fold_left]. rewrite D. reflexivity. }
    destruct C as [E|(rb & d & sa & ea & k0 & g0 & Ha & Hs & Hk & Hn & E)]; rewrite E.
    + split; [exact N|]. intros k g Hin. destruct (I k g Hin) as (pre & o' & post & rb & d & sa & ea & -> & R).
      exists pre, o', (post ++ [o]), rb, d, sa, ea. split; [rewrite <- app_assoc; reflexivity|exact R].
    + split; [constructor; auto|]. intros k g [Hin|Hin].
      * injection Hin as <- <-. exists ops, o, [], rb, d, sa, ea. rewrite <- D. auto.
      * destruct (I k g Hin) as (pre & o' & post & rb' & d' & sa' & ea' & -> & R).
        exists pre, o', (post ++ [o]), rb', d', sa', ea'. split; [rewrite <- app_assoc; reflexivity|exact R].
Qed.

(** Whole thousandths. *)
Lemma milli_whole k x : x = IZR k / 1000 -> (0 <= k <= 2147483647)%Z -> milli x = Ok k.
Proof.
  intros -> H. unfold milli. replace (1000 * (IZR k / 1000)) with (IZR k) by field.
  assert (E : Rtrunc (IZR k) = k).
  { unfold Rtrunc. assert (0 <= IZR k) by (apply IZR_le; lia). destruct (Rle_dec 0 (IZR k)); [|lra]. apply floor_unique. lra. }
  rewrite E. unfold to_int. replace (Z.leb (-2147483648) k) with true by (symmetry; apply Z.leb_le; lia).
  replace (Z.leb k 2147483647) with true by (symmetry; apply Z.leb_le; lia). reflexivity.
Qed.

(** Loop detection. *)
Lemma loop_from_iff controls : forall T A, loop_from T A controls = true <->
  (exists c, In c controls /\ 9 / 10 < Rabs (full_turns c)) \/ 9 / 10 < Rabs (T + rsum (map full_turns controls)) \/
  15 / 10 < A + rsum (map (fun c => Rabs (full_turns c)) controls).
Proof.
  induction controls as [|[ds k] cs IH]; intros T A; cbn [loop_from map].
  - rewrite orb_true_iff. change (rsum []) with 0. rewrite !Rplus_0_r. unfold Rltb.
    destruct (Rlt_dec (9 / 10) (Rabs T)); destruct (Rlt_dec (15 / 10) A); split; intros H; auto;
      repeat match goal with H : _ \/ _ |- _ => destruct H end; try discriminate; try contradiction; auto.
    destruct H as (c & [] & _).
  - rewrite !rsum_cons.
    assert (E : full_turns (ds, k) = / 2 * ds * k / PI) by (unfold full_turns; cbn [fst snd]; field; pose proof PI_RGT_0; lra).
    unfold Reqb. destruct (Req_EM_T k 0) as [->|Nk].
    + assert (Z : full_turns (ds, 0) = 0) by (rewrite E; unfold Rdiv; rewrite Rmult_0_r, Rmult_0_l; reflexivity).
      rewrite IH, Z, Rabs_R0, !Rplus_0_l. split; intros [(c & I & L)|H]; auto.
      * left. exists c. split; [right|]; auto.
      * destruct I as [<-|I]; [rewrite Z, Rabs_R0 in L; lra|]. left. exists c. auto.
    + rewrite <- E. unfold Rltb. destruct (Rlt_dec (9 / 10) (Rabs (full_turns (ds, k)))) as [L|L].
      * split; auto. intros _. left. exists (ds, k). split; [left; auto|auto].
      * rewrite IH, !Rplus_assoc. split; intros [(c & I & Lc)|H]; auto.
        -- left. exists c. split; [right|]; auto.
        -- destruct I as [<-|I]; [contradiction|]. left. exists c. auto.
Qed.

(** The state made of the i-th point of the curve. *)
Definition steer_made (curve : list steer_state) (v : R) (i : nat) (s : rstate) : Prop :=
  exists c, nth_error curve i = Some c /\ ps_point s = mkPoint (N := RNum) (st_x c) (st_y c) 0 /\ ps_angle s = st_theta c /\
    to_int (Rtrunc (st_d c)) = Ok (ps_dir s) /\ ps_type s = 2%Z /\ ps_vel s = v /\
    ps_len s = match nth_error curve (S i) with
               | Some c' => R_sqrt.sqrt ((st_x c - st_x c') * (st_x c - st_x c') + (st_y c - st_y c') * (st_y c - st_y c'))
               | None => 0 end.

Lemma steer_dist_ok curve i c : nth_error curve i = Some c -> steer_dist curve i = Ok
  (match nth_error curve (S i) with
   | Some c' => R_sqrt.sqrt ((st_x c - st_x c') * (st_x c - st_x c') + (st_y c - st_y c') * (st_y c - st_y c'))
   | None => 0 end).
Proof.
  intro E. unfold steer_dist. replace (i + 1)%nat with (S i) by lia. destruct (nth_error curve (S i)) as [c'|] eqn:E'.
  - replace (Nat.ltb (S i) (length curve)) with true.
    2: { symmetry. apply Nat.ltb_lt. apply nth_error_Some. congruence. }
    unfold vec_index. rewrite E, E'. reflexivity.
  - replace (Nat.ltb (S i) (length curve)) with false; [reflexivity|]. symmetry. apply Nat.ltb_ge. apply nth_error_None. auto.
Qed.

Lemma steer_prefix curve v n : (n <= length curve)%nat ->
  let F := (fun path i =>
    do c <- vec_index curve i;
    do len <- steer_dist curve i;
    do dir <- to_int (Rtrunc (st_d c));
    Ok (path_addState RNum path
          (mkPS (N := RNum) (mkPoint (N := RNum) (st_x c) (st_y c) 0) (st_theta c) len dir SEC_TURN v))) in
  (forall r, foldM F (seq 0 n) [] = Ok r -> length r = n /\ forall i s, nth_error r i = Some s -> steer_made curve v i s) /\
  ((forall c, In c curve -> exists z, to_int (Rtrunc (st_d c)) = Ok z) -> exists r, foldM F (seq 0 n) [] = Ok r).
Proof.
  intros Hn F. induction n as [|n IH].
  - cbn [seq foldM]. split; [intros r H; injection H as <-; split; [reflexivity|intros [|i] s Hs; discriminate]|]. intros _. exists []. reflexivity.
  - destruct (IH ltac:(lia)) as [IH1 IH2]. clear IH. rewrite seq_S, foldM_snoc. cbn [Nat.add].
    destruct (nth_error curve n) as [c|] eqn:Ec; [|apply nth_error_None in Ec; lia].
    assert (EF : forall p, F p n = do dir <- to_int (Rtrunc (st_d c)); Ok (p ++ [mkPS (N := RNum) (mkPoint (N := RNum) (st_x c) (st_y c) 0) (st_theta c)
       (match nth_error curve (S n) with
        | Some c' => R_sqrt.sqrt ((st_x c - st_x c') * (st_x c - st_x c') + (st_y c - st_y c') * (st_y c - st_y c'))
        | None => 0 end) dir SEC_TURN v])).
    { intro p. unfold F. rewrite (steer_dist_ok _ _ _ Ec). unfold vec_index. rewrite Ec. reflexivity. }
    split.
    + intros r H. destruct (foldM F (seq 0 n) []) as [p| | |]; try discriminate. cbn [bind] in H. rewrite EF in H.
      destruct (to_int (Rtrunc (st_d c))) as [z| | |] eqn:Ez; try discriminate. cbn [bind] in H. injection H as <-.
      destruct (IH1 p eq_refl) as [L N]. split; [rewrite app_length; simpl; lia|]. intros i s Hs.
      destruct (lt_dec i n) as [Li|Li].
      * rewrite nth_error_app1 in Hs by lia. auto.
      * rewrite nth_error_app2 in Hs by lia. destruct (i - length p)%nat as [|j] eqn:Ej; [|destruct j; discriminate].
        cbn [nth_error] in Hs. injection Hs as <-. assert (i = n) by lia. subst i. exists c. cbn [ps_point ps_angle ps_dir ps_type ps_vel ps_len].
        repeat split; auto.
    + intro HZ. destruct (IH2 HZ) as [p Hp]. rewrite Hp. cbn [bind]. rewrite EF. destruct (HZ c (nth_error_In _ _ Ec)) as [z ->]. eexists. reflexivity.
Qed.

Section CC.
  Variables (gc : R -> R -> R -> list (R * R)) (gp : R -> R -> R -> list steer_state) (fl : bool) (rb : robot RNum) (disc : R).
  Let kap (n : nat) : R := rb_max_icc rb / (1 + 5 / 100 * INR n).
  Let sig (n : nat) : R := rb_diff_curv rb / (1 + 2 / 10 * INR n).
  Let again (n : nat) : Prop := fl = true /\ loop_detected (gc (kap n) (sig n) disc) = true.

  Lemma cc_loop_raw fuel : forall n, (22 <= fuel + n)%nat -> (n <= 21)%nat ->
    exists m, (n <= m <= 21)%nat /\ (forall j, (n <= j < m)%nat -> again j) /\ (m = 21%nat \/ ~ again m) /\
      cc_loop gc gp fuel fl rb disc n = (do p <- steerStatesToPath (gp (kap m) (sig m) disc) (rb_getTurnVel RNum rb); Ok (m, p)).
  Proof.
    induction fuel as [|fuel IH]; intros n Hf Hn; [lia|]. cbn [cc_loop]. unfold rb_getMaxCurv, rb_getMaxDiffCurv. fold (kap n) (sig n).
    destruct (fl && loop_detected (gc (kap n) (sig n) disc))%bool eqn:E; cbn [andb].
    - apply andb_true_iff in E. destruct E as [E1 E2]. unfold Rleb. destruct (Rle_dec (INR n) 20) as [L|L].
      + assert (Hn' : (n <= 20)%nat) by (apply INR_le; simpl; lra).
        destruct (IH (S n) ltac:(lia) ltac:(lia)) as (m & M1 & M2 & M3 & M4). exists m. split; [lia|]. split; [|split; [exact M3|exact M4]].
        intros j Hj. destruct (Nat.eq_dec j n) as [->|]; [split; auto|]. apply M2. lia.
      + assert (~ (n <= 20)%nat) by (intro Q; apply le_INR in Q; simpl in Q; lra). assert (n = 21)%nat by lia. subst n.
        exists 21%nat. split; [lia|]. split; [intros; lia|]. split; [auto|reflexivity].
    - exists n. split; [lia|]. split; [intros; lia|]. split; [|reflexivity]. right. intros [A B]. unfold again in *. rewrite A, B in E. discriminate.
  Qed.
End CC.

Lemma moved_carried p rot sg s s' q : sg = 1 \/ sg = -1 -> moved p rot sg s s' -> at_xy q (placing p rot sg (ps_point s)) ->
  forall t, ps_point t = q -> same_kind t s' -> ps_len t = ps_len s' -> carried (placing p rot sg) s t.
Proof.
  intros Hs (A & _ & _ & C & D1 & D2 & D3 & D4) Hq t Et (K1 & K2 & K3 & K4) El. unfold carried. rewrite Et, El, K2, K3, K4, D1, D2, D3, D4.
  split; [exact Hq|]. split; [|auto]. unfold leads_to, at_xy, placing in *. cbn [fst snd] in *. intros d u u' [U1 U2] [V1 V2].
  rewrite Et, K1, K2, D2, (cos_congruent _ _ C), (sin_congruent _ _ C), cos_plus, sin_plus. destruct Hq as [Q1 Q2].
  rewrite V1, V2, U1, U2, Q1, Q2.
  assert (Es : cos (sg * ps_angle s) = cos (ps_angle s) /\ sin (sg * ps_angle s) = sg * sin (ps_angle s)).
  { destruct Hs as [-> | ->]; [rewrite !Rmult_1_l; auto|]. replace (-1 * ps_angle s) with (- ps_angle s) by ring. rewrite cos_neg, sin_neg. split; [reflexivity|ring]. }
  destruct Es as [-> ->].
  assert (Q : forall cx cy x y dd c1 s1 c2 s2 : R,
     cx + (x + dd * c2) * c1 - sg * (y + dd * s2) * s1 = cx + x * c1 - sg * y * s1 + dd * (c1 * c2 - s1 * (sg * s2)) /\
     cy + (x + dd * c2) * s1 + sg * (y + dd * s2) * c1 = cy + x * s1 + sg * y * c1 + dd * (s1 * c2 + c1 * (sg * s2)))
    by (intros; split; ring).
  apply (Q (px p) (py p) (px (ps_point s)) (py (ps_point s)) (IZR (ps_dir s) * d) (cos rot) (sin rot) (cos (ps_angle s)) (sin (ps_angle s))).
Qed.
