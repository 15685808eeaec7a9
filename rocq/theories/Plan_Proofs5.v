(** Proofs about paths planned in one call: the turns, and the places of a route. *)
From Coq Require Import List Arith ZArith Lia Bool Reals Lra Psatz Permutation.
From Verif Require Import Outcome ListAux Num Swath_Model Graph_Model Graph_Spec Graph_Proofs4 Graph2D_Model Graph2D_Spec Route_Model RoutePlanner_Model
  RoutePlanner_Spec RoutePlanner_Spec2 RoutePlanner_Spec3 RoutePlanner_Props RoutePlanner_Props3 Point_Model Angle_Model Angle_Spec Angle_Props SwathGen_Model SwathGen_Spec SwathGen_Proofs2
  Robot_Model Path_Model Path_Spec Path_Proofs Path_Props2 Objective_Spec Objective_Proofs2 Turning_Model Turning_Spec Turning_Proofs Turning_Props
  Curves_Model Curves_Spec Curves_Proofs PathPlanning_Spec PathPlanning_Props Transform_Model Plan_Model Plan_Spec Plan_Spec2 Plan_Proofs Plan_Proofs2 Plan_Props.
Import ListNotations.
Open Scope R_scope.

(** ** Turns *)

(** What the planner needs of a turn: see [usable]. *)
Definition good (g : list rstate) : Prop :=
  (Z.of_nat (length g) <= 10000000)%Z /\ (forall s : rstate, In s g -> 0 <= ps_len s <= 1) /\
  ((3 <= length g)%nat -> exists s : rstate, In s g /\ 0 < ps_len s).

Lemma same_places (curve : list steer_state) :
  (forall i c c', nth_error curve i = Some c -> nth_error curve (S i) = Some c' -> (st_x c, st_y c) = (st_x c', st_y c')) ->
  forall c c', In c curve -> In c' curve -> (st_x c, st_y c) = (st_x c', st_y c').
Proof.
  intro H. assert (A : forall i c c0, nth_error curve i = Some c -> nth_error curve 0 = Some c0 -> (st_x c, st_y c) = (st_x c0, st_y c0)).
  { induction i as [|i IH]; intros c c0 Hc H0; [congruence|].
    destruct (nth_error curve i) as [d|] eqn:E.
    - rewrite <- (H i d c E Hc). apply IH; auto.
    - apply nth_error_None in E. assert (nth_error curve (S i) = None) by (apply nth_error_None; lia). congruence. }
  intros c c' Hc Hc'. apply In_nth_error in Hc, Hc'. destruct Hc as [i Hi], Hc' as [j Hj].
  destruct curve as [|c0 curve]; [destruct i; discriminate|]. rewrite (A i c c0 Hi eq_refl), (A j c' c0 Hj eq_refl). reflexivity.
Qed.

Lemma sq_apart (a b c d : R) : (a, b) <> (c, d) -> 0 < (a - c) * (a - c) + (b - d) * (b - d).
Proof.
  intro H. assert (Q : forall x : R, 0 <= x * x) by (intro x; apply Rle_0_sqr). assert (P : forall x : R, x <> 0 -> 0 < x * x) by (intros x; apply Rlt_0_sqr).
  pose proof (Q (a - c)). pose proof (Q (b - d)). destruct (Req_dec a c) as [E|E]; [destruct (Req_dec b d) as [F|F]; [congruence|]|].
  - assert (b - d <> 0) by lra. specialize (P _ H2). lra.
  - assert (a - c <> 0) by lra. specialize (P _ H2). lra.
Qed.

Lemma steer_good curve v : usable curve -> exists g, steerStatesToPath curve v = Ok g /\ good g.
Proof.
  intros (U1 & U2 & U3 & U4). destruct (steer_to_path curve v) as [A B].
  destruct B as [g Hg]. { intros c Hc. destruct (U2 c Hc) as [-> | ->]; unfold Rabs; destruct Rcase_abs; lra. }
  exists g. split; [exact Hg|]. destruct (A g Hg) as [L N]. split; [rewrite L; exact U1|]. split.
  - intros s Hs. apply In_nth_error in Hs. destruct Hs as [i Hi]. destruct (N i s Hi) as (c & Hc & _ & _ & _ & _ & _ & _ & L1 & L2).
    destruct (nth_error curve (S i)) as [c'|] eqn:E.
    + rewrite (L1 c' eq_refl). split; [apply sqrt_pos|]. rewrite <- sqrt_1. apply sqrt_le_1_alt. eapply U3; eauto.
    + rewrite L2; [split; [apply Rle_refl|apply Rle_0_1]|]. apply nth_error_None in E. assert (i < length curve)%nat by (apply nth_error_Some; congruence). lia.
  - intro H3. rewrite L in H3. destruct (U4 H3) as (c & c' & Hc & Hc' & NE).
    destruct (Exists_dec (fun s : rstate => 0 < ps_len s) g (fun s => Rlt_dec 0 (ps_len s))) as [E|E].
    { apply Exists_exists in E. exact E. }
    exfalso. apply NE. apply (same_places curve); auto. intros i a b Ha Hb.
    assert (exists s, nth_error g i = Some s) as [s Hs].
    { destruct (nth_error g i) as [s|] eqn:Es; [eauto|]. apply nth_error_None in Es. assert (i < length curve)%nat by (apply nth_error_Some; congruence). lia. }
    destruct (N i s Hs) as (a' & Ha' & _ & _ & _ & _ & _ & _ & L1 & _). rewrite Ha in Ha'. injection Ha' as <-.
    destruct (Req_EM_T (st_x a) (st_x b)) as [X|X]; [destruct (Req_EM_T (st_y a) (st_y b)) as [Y|Y]; [congruence|]|];
      (exfalso; apply E; apply Exists_exists; exists s; split; [eapply nth_error_In; eauto|]; rewrite (L1 b Hb); apply sqrt_lt_R0; apply sq_apart; congruence).
Qed.

Lemma moved_good p rot sg (g l : list rstate) : Forall2 (moved p rot sg) g l -> good g ->
  good l /\ forall s : rstate, In s l -> 0 <= ps_angle s < 2 * PI.
Proof.
  intros F (G1 & G2 & G3). assert (FL := Forall2_length F). split; [split; [rewrite <- FL; exact G1|split]|].
  - intros s Hs. destruct (Forall2_in_r _ _ _ F s Hs) as (s0 & H0 & (_ & _ & _ & _ & (E & _))). rewrite E. auto.
  - rewrite <- FL. intro H. destruct (G3 H) as (s & Hs & L). destruct (Forall2_in_l _ _ _ F s Hs) as (s' & H0 & (_ & _ & _ & _ & (E & _))).
    exists s'. rewrite E. auto.
  - intros s Hs. destruct (Forall2_in_r _ _ _ F s Hs) as (s0 & H0 & (_ & _ & A & _)). exact A.
Qed.

(** A turn of good states can be resampled. *)
Lemma discretize_good (r : list rstate) : good r -> (forall s : rstate, In s r -> 0 <= ps_angle s < 2 * PI) ->
  exists d, path_discretize r (1 / 10) = Ok d.
Proof.
  intros (G1 & G2 & G3) A. destruct (discretize_short r (1 / 10)) as (D1 & _ & D2).
  assert (PL : 0 <= path_length RNum r <= IZR (Z.of_nat (length r))).
  { rewrite length_sum, <- INR_IZR_INZ. split; [apply al_nonneg|]. clear - G2. induction r as [|s r IH]; [cbn; lra|].
    cbn [map]. rewrite rsum_cons. cbn [length]. rewrite S_INR. assert (al s <= 1).
    { unfold al. destruct (G2 s (or_introl eq_refl)). rewrite Rabs_right by lra. lra. }
    specialize (IH (fun x Hx => G2 x (or_intror Hx))). lra. }
  apply IZR_le in G1. pose proof PI_4.
  destruct (le_lt_dec (length r) 1) as [L|L]; [eauto|]. destruct (Nat.eq_dec (length r) 2) as [L2|L2].
  - exists (path_reduce RNum (1 / 10) r). apply D2; [exact L2|lra|]. destruct (trunc_spec (10 / (1 / 10) * path_length RNum r)) as (T1 & T2 & T3); [lra|].
    assert (Rtrunc (10 / (1 / 10) * path_length RNum r) < 2000000000)%Z; [apply lt_IZR; lra|lia].
  - assert (R : resamplable r).
    { split; [lia|]. split; [intros s Hs; apply G2; exact Hs|]. split.
      - destruct (G3 ltac:(lia)) as (s & Hs & Ls). intro E. assert (In s (moving r)) as Hm; [|rewrite E in Hm; destruct Hm].
        unfold moving. apply filter_In. split; [exact Hs|]. destruct (Req_EM_T (ps_len s) 0) as [Z|]; [rewrite Z in Ls; lra|reflexivity].
      - intros s Hs. destruct (A s Hs) as [A1 A2]. rewrite Rabs_right by (apply Rle_ge; exact A1). rewrite INR_IZR_INZ.
        assert (IZR (Z.of_nat (length r)) * PI <= 10000000 * 4) by (apply Rmult_le_compat; [apply IZR_le; lia|apply Rlt_le, PI_RGT_0|auto|auto]).
        simpl. lra. }
    destruct (discretize_keeps_length r (1 / 10) ltac:(lra) R) as [S1 S2]; [lra|].
    destruct (Rlt_le_dec (10 / (1 / 10) * path_length RNum r) 1) as [Z|Z]; [eauto|]. destruct (S2 Z) as (d & E & _). eauto.
Qed.

Definition turner_good (t : turner) : Prop := t_disc t = 1 / 100 /\ forall k g, In (k, g) (t_cache t) -> good g.

Lemma new_good : turner_good turner_new.
Proof. split; [reflexivity|intros k g []]. Qed.

Section Turns.
  Variable pl : planner.
  Variable rb : robot RNum.
  Hypothesis Hk : 0 <= rb_max_icc rb < 2147483.
  Hypothesis Hs : 0 <= rb_diff_curv rb < 2147483.
  Hypothesis Lib : forall k sg d sa ea, limits pl rb k sg -> 0 <= d <= 2000000 -> 0 <= sa <= PI -> 0 <= ea < 2 * PI ->
    usable (curve_of pl k sg (1 / 100) (mkEnd 0 0 sa 0 0) (mkEnd d 0 ea 0 0)).

  Lemma simple_good d sa ea : 0 <= d <= 2000000 -> 0 <= sa <= PI -> 0 <= ea < 2 * PI ->
    exists g, createSimpleTurn pl rb (1 / 100) d sa ea = Ok g /\ good g.
  Proof.
    intros H1 H2 H3. destruct (simple_curve pl rb (1 / 100) d sa ea) as (k & sg & HL & _ & E); [apply Hk|apply Hs|].
    rewrite E. apply steer_good. apply Lib; auto.
  Qed.

  (** A turn over at most 2000 km is defined, and can be resampled. *)
  Lemma turn_total t (p : pt) a (q : pt) b : turner_good t -> R_sqrt.sqrt (dist2 p q) <= 2000000 ->
    exists r t' d, createTurn (createSimpleTurn pl) t rb p a q b = Ok (r, t') /\ turner_good t' /\ path_discretize r (1 / 10) = Ok d.
  Proof.
    intros [TD TC] HD. destruct (transformToNormalTurn p a q b) as [[[[d rot] sa] ea] inv] eqn:E.
    destruct (normal_turn _ _ _ _ _ _ _ _ _ E) as (N1 & N2 & N3 & N4 & _). rewrite <- N1 in HD.
    assert (D0 : 0 <= d) by (rewrite N1; apply sqrt_pos).
    destruct (simple_good d sa ea) as (g0 & Eg0 & Gg0); auto.
    destruct (create_turn_defined (createSimpleTurn pl) t rb p a q b d rot sa ea inv E) as (r & t' & HT).
    { rewrite TD. eauto. }
    { intros U x Hx. pose proof PI_4. cbn [In] in Hx. change (carrier RNum) with R in *.
      destruct Hx as [<-|[<-|[<-|[<-|[<-|[]]]]]]; apply Rabs_def1; lra. }
    exists r, t'. destruct (create_turn _ _ _ _ _ _ _ _ _ HT) as (d0 & rot0 & sa0 & ea0 & inv0 & g & T & G & Short & Long).
    rewrite E in T. injection T as <- <- <- <- <-.
    assert (K : good g /\ turner_good t').
    { destruct (t_using t).
      - apply cached_raw in G. destruct G as (k & _ & [[Hin ->]|(_ & G & ->)]).
        + split; [eapply TC; eauto|split; auto].
        + rewrite TD in G. assert (g0 = g) by congruence. subst g0. split; [exact Gg0|]. split; [exact TD|]. cbn [t_cache].
          intros k' g' [X|X]; [injection X as _ <-; exact Gg0|eapply TC; eauto].
      - destruct G as [G ->]. rewrite TD in G. assert (g0 = g) by congruence. subst g0. split; [exact Gg0|split; auto]. }
    destruct K as [Gg Gt]. assert (exists dd, path_discretize r (1 / 10) = Ok dd) as [dd Hdd]; [|exists dd; auto].
    destruct (le_lt_dec (length g) 1) as [L|L]; [rewrite (Short L); eexists; reflexivity|].
    destruct (Long L) as (s & mid & e & s1 & mid1 & e1 & s2 & e2 & -> & -> & F & ((Ka & _) & Kl & _) & ((Ka' & _) & Kl' & _)).
    destruct (moved_good _ _ _ _ _ F Gg) as [(M1 & M2 & M3) MA].
    apply discretize_good.
    - split; [|split].
      + cbn [length] in *. rewrite app_length in *. exact M1.
      + intros x [<-|Hx]; [rewrite Kl; apply M2; left; reflexivity|]. apply in_app_or in Hx. destruct Hx as [Hx|[<-|[]]].
        * apply M2. right. apply in_or_app. auto.
        * rewrite Kl'. apply M2. right. apply in_or_app. right. left. reflexivity.
      + intro H3. destruct M3 as (x & Hx & Lx). { cbn [length] in *. rewrite app_length in *. exact H3. }
        destruct Hx as [<-|Hx]; [exists s2; split; [left; auto|rewrite Kl; exact Lx]|]. apply in_app_or in Hx. destruct Hx as [Hx|[<-|[]]].
        * exists x. split; [right; apply in_or_app; auto|exact Lx].
        * exists e2. split; [right; apply in_or_app; right; left; auto|rewrite Kl'; exact Lx].
    - intros x [<-|Hx]; [rewrite Ka; apply MA; left; reflexivity|]. apply in_app_or in Hx. destruct Hx as [Hx|[<-|[]]].
      + apply MA. right. apply in_or_app. auto.
      + rewrite Ka'. apply MA. right. apply in_or_app. right. left. reflexivity.
  Qed.
End Turns.

Lemma simple_turns_only pl : turns_only (createSimpleTurn pl).
Proof.
  intros rb disc d sa ea g H. assert (exists curve v, steerStatesToPath curve v = Ok g) as (curve & v & E).
  { destruct pl as [lib|ctl lib|lib|lib]; cbn [createSimpleTurn] in H; try (do 2 eexists; exact H).
    unfold dubins_cc_simple in H. revert H. generalize 0%nat at 2. generalize 22%nat. intro fuel. induction fuel as [|fuel IH]; intros n H; [discriminate|].
    cbn [cc_loop] in H. destruct (_ && _ && _); [eapply IH; exact H|].
    destruct (steerStatesToPath _ _) as [p| | |] eqn:E; try discriminate. cbn [bind snd] in H. injection H as <-. eauto. }
  destruct (steer_to_path curve v) as [A _]. destruct (A g E) as [_ N]. intros s Hin. apply In_nth_error in Hin. destruct Hin as [i Hi].
  destruct (N i s Hi) as (c & _ & _ & _ & T & _). exact T.
Qed.

(** ** Places *)
Lemma abs_le_inv x c : Rabs x <= c -> - c <= x <= c.
Proof. unfold Rabs. destruct (Rcase_abs x); lra. Qed.
Lemma around_convex o : convex (around o).
Proof.
  intros a b x s [A1 A2] [B1 B2] Hs X Y. apply abs_le_inv in A1, A2, B1, B2. unfold around. rewrite X, Y.
  change (carrier RNum) with R in *. split; apply Rabs_le; nra.
Qed.
Lemma around_dist o p q : around o p -> around o q -> R_sqrt.sqrt (dist2 p q) <= 2000000.
Proof.
  intros [A1 A2] [B1 B2]. apply abs_le_inv in A1, A2, B1, B2. rewrite <- (sqrt_square 2000000) by lra. apply sqrt_le_1_alt. unfold dist2.
  change (carrier RNum) with R in *.
  assert (H1 : (px p - px q) * (px p - px q) <= 1400000 * 1400000) by nra.
  assert (H2 : (py p - py q) * (py p - py q) <= 1400000 * 1400000) by nra. lra.
Qed.

Lemma on_line_in (Q : pt -> Prop) l (x : pt) : convex Q -> (forall p, In p l -> Q p) -> on_line l x -> Q x.
Proof.
  intro CQ. induction l as [|a [|b l] IH]; intros H O; [destruct O|destruct O|].
  destruct O as [(t & Ht & X & Y & _)|O].
  - apply (CQ b a x t); [apply H; simpl; auto|apply H; simpl; auto|exact Ht|rewrite X; reflexivity|rewrite Y; reflexivity].
  - apply IH; [intros p Hp; apply H; right; exact Hp|exact O].
Qed.

Lemma base_in (Q : pt -> Prop) o (rings : list (list (list pt))) (ss : list rswath) : convex Q -> rings <> [] -> rings_ok rings ->
  (forall c r p, In c rings -> In r c -> In p r -> Q p) -> (forall s p, In s ss -> In p (sw_path s) -> Q p) -> (forall s, In s ss -> sw_path s <> []) ->
  forall x y, base o (fun p => cells_closestPointOnBorderTo p rings) None (concat rings) ss x y -> Q x /\ Q y.
Proof.
  intros CQ NE RO HR HS HN x y B.
  assert (C : forall p c, cells_closestPointOnBorderTo p rings = Ok c -> Q c).
  { intros p c E. destruct (closest_on_borders p rings NE RO) as (q & E' & (cell & Hc & r & Hr & O) & _). rewrite E in E'. injection E' as ->.
    apply (on_line_in Q r q CQ); [|exact O]. intros p0 Hp0. apply (HR cell r p0); auto. }
  assert (F : forall s, In s ss -> Q (first_pt o s) /\ Q (last_pt o s)).
  { intros s Hs. specialize (HN s Hs). unfold first_pt, last_pt. split; apply (HS s); auto.
    - destruct (sw_path s); [congruence|left; reflexivity].
    - destruct (exists_last HN) as (l & a & ->). rewrite last_last. apply in_or_app. right. left. reflexivity. }
  destruct B as [s c Hs Hc|s c Hs Hc|ring i a b Hr Ha Hb|p c E _].
  - split; [apply F; auto|eapply C; eauto].
  - split; [apply F; auto|eapply C; eauto].
  - apply in_concat in Hr. destruct Hr as (cell & Hcell & Hr). apply nth_error_In in Ha, Hb. split; eapply HR; eauto.
  - discriminate.
Qed.

Lemma legs_in {P W} (Way : P -> P -> list P -> Prop) (d : P) (Q : P -> Prop) : (forall a b w, Way a b w -> forall p, In p w -> Q p) ->
  forall (cs : list (swath P W)) ws from, legs d Way None from cs ws -> forall w p, In w ws -> In p w -> Q p.
Proof.
  intro HW. induction cs as [|c cs IH]; intros [|w ws] from H u p Hu Hp; try (destruct Hu); try contradiction.
  - destruct ws; contradiction.
  - destruct ws; contradiction.
  - subst u. destruct H as [H _]. eapply HW; eauto.
  - destruct H as [_ H]. eapply IH; eauto.
Qed.

Section Route.
  Variable wkt : rpoint -> rpoint.
  Variable keq : rpoint -> rpoint -> bool.
  Variable near : rpoint -> rpoint -> rpoint -> bool.
  Variable node_order : list rpoint -> list rpoint.
  Variable edge_order : edges_t -> list (nat * nat).
  Variable solver : graph2d rpoint -> nat -> option (list nat).
  Hypothesis Heq : equivalence keq.
  Hypothesis Hnear : forall a b n a' b' n', keq a a' = true -> keq b b' = true -> keq n n' = true -> near a b n = near a' b' n'.
  Hypothesis Hswap : forall a b n, near a b n = near b a n.
  Hypothesis Hno : forall l, Permutation (node_order l) l.
  Hypothesis Heo : forall e, Permutation (edge_order e) (edge_pairs e).
  Hypothesis Hsolve : solves solver.

  (** The planned route, and where its connections are. *)
  Lemma route_placed rings (sbc : list (list rswath)) :
    (forall s, In s (concat sbc) -> 0 < sw_width s) ->
    routable wkt keq near (fun p => cells_closestPointOnBorderTo p rings) (concat rings) (concat sbc) ->
    exists r, plan_genRoute wkt keq near node_order edge_order solver rings sbc = Ok r /\ drives_all wkt (concat sbc) r /\
      forall mp p, In mp (r_conns r) -> In p mp ->
        exists q, base (p_default RNum) (fun p => cells_closestPointOnBorderTo p rings) None (concat rings) (concat sbc) p q \/
                  base (p_default RNum) (fun p => cells_closestPointOnBorderTo p rings) None (concat rings) (concat sbc) q p.
  Proof.
    intros Hw (H1 & H2 & H3 & H4 & H5 & H6 & D & HD & H7 & H8).
    destruct (connections_shortest rpoint R (p_default RNum) w_nonpos 0 wkt keq dist_cost mid_point far_point
      (fun p => cells_closestPointOnBorderTo p rings) near node_order edge_order solver Heq Hnear Hswap Hno Heo
      None (concat rings) sbc true (Rtrunc (1000 * D))) as (h & sg & _ & _ & HI & _ & g & _ & (ids & G2) & G3); auto.
    - apply Forall_forall. intros s Hs. split; [|apply H2; auto]. unfold w_nonpos.
      destruct (Rleb (sw_width s) 0) eqn:E; auto. apply Rleb_true in E. specialize (Hw s Hs). lra.
    - intros x y x' y' Hx Hy. specialize (H7 x y x' y' Hx Hy). unfold dist_cost. apply trunc_mono.
      change (p_distance x y) with (sqrt (dist2 x y)). pose proof (sqrt_pos (dist2 x y)). lra.
    - destruct (trunc_spec (1000 * D)) as (A & B & C); [lra|]. apply lt_IZR. rewrite mult_IZR, <- INR_IZR_INZ.
      eapply Rle_lt_trans; [|exact H8]. apply Rmult_le_compat_r; [apply pos_INR|]. lra.
    - destruct (Hsolve g _ ids G2) as (ids' & Es & Ht). destruct (G3 ids' Es Ht) as (r & cs & ks & E & P1 & P2 & P3 & P4).
      exists r. split; [exact E|]. split.
      { exists ks. split; [exact P1|]. rewrite P3. assert (Z : concat (map (fun c : rswath => [c]) cs) = cs) by (clear; induction cs; simpl; congruence). rewrite Z. exact P2. }
      assert (WI : forall a b w, way keq dist_cost h a b w -> forall p, In p w -> In p (inserted h)).
      { intros a b w [[_ ->]|(_ & I & _)] p Hp; [destruct Hp|apply I; exact Hp]. }
      intros mp p Hmp Hp. apply HI. unfold linked_by in P4. destruct cs as [|c cs]; [contradiction|]. destruct (r_conns r) as [|w ws]; [contradiction|].
      destruct P4 as [-> L]. destruct Hmp as [<-|Hmp]; [destruct Hp|]. apply (legs_in _ _ _ WI _ _ _ L mp p Hmp Hp).
  Qed.
End Route.
