(** Proofs about planning in one call: when there is no route. *)
From Coq Require Import List Arith ZArith Lia Bool Reals Lra Psatz Permutation.
From Verif Require Import Outcome ListAux Num Swath_Model Swath_Props Graph_Model Graph_Spec Graph_Proofs4 Graph2D_Model Graph2D_Spec Route_Model RoutePlanner_Model
  RoutePlanner_Spec RoutePlanner_Props Point_Model Angle_Model Angle_Spec Objective_Model Objective_Spec Objective_Proofs Objective_Proofs2
  Objective_Props SwathGen_Model SwathGen_Spec SwathGen_Proofs SwathGen_Proofs2 SwathGen_Props Robot_Model
  Transform_Model Plan_Model Plan_Spec Plan_Proofs Plan_Proofs2.
Import ListNotations.
Open Scope R_scope.

(** Points that are not on one line differ across every direction. *)
Lemma fat_across (c : rcell) a : fat c -> exists x0 x1 y0 y1,
  extent (along a) (concat c) x0 x1 /\ extent (across_of a) (concat c) y0 y1 /\ y0 < y1.
Proof.
  intros (p & q & r & Hp & Hq & Hr & Hx).
  assert (Hc : concat c <> []) by (intro E; rewrite E in Hp; destruct Hp).
  destruct (cell_extents a c Hc) as (x0 & x1 & y0 & y1 & EX & EY). exists x0, x1, y0, y1. split; auto. split; auto.
  destruct EY as (_ & _ & EY). pose proof (EY p Hp) as Ap. pose proof (EY q Hq) as Aq. pose proof (EY r Hr) as Ar.
  destruct (Rlt_dec y0 y1) as [|Hn]; auto. exfalso. apply Hx.
  assert (A1 : across_of a q = across_of a p) by lra. assert (A2 : across_of a r = across_of a p) by lra.
  unfold across_of in A1, A2. pose proof (sin2_cos2 a) as SC. unfold Rsqr in SC.
  set (u := px q - px p) in *. set (v := py q - py p) in *. set (u' := px r - px p) in *. set (v' := py r - py p) in *.
  assert (B1 : v * cos a = u * sin a) by (unfold u, v; simpl in *; lra).
  assert (B2 : v' * cos a = u' * sin a) by (unfold u', v'; simpl in *; lra).
  clearbody u v u' v'. 
  assert (C1 : (u * v' - v * u') * cos a = 0).
  { replace ((u * v' - v * u') * cos a) with (u * (v' * cos a) - u' * (v * cos a)) by ring. rewrite B1, B2. ring. }
  assert (C2 : (u * v' - v * u') * sin a = 0).
  { replace ((u * v' - v * u') * sin a) with (v' * (u * sin a) - v * (u' * sin a)) by ring. rewrite <- B1, <- B2. ring. }
  replace (u * v' - v * u') with ((u * v' - v * u') * (sin a * sin a + cos a * cos a)) by (rewrite SC; ring).
  replace ((u * v' - v * u') * (sin a * sin a + cos a * cos a)) with ((u * v' - v * u') * sin a * sin a + (u * v' - v * u') * cos a * cos a) by ring.
  rewrite C1, C2. ring.
Qed.

Lemma foldM_first_hang {A S} (f : S -> A -> outcome S) l s : l <> [] -> (forall a s, f s a = Hang) -> foldM f l s = Hang.
Proof. intros H K. destruct l; [congruence|]. cbn [foldM]. rewrite K. reflexivity. Qed.
Lemma foldM_first_UB {A S} (f : S -> A -> outcome S) l s : l <> [] -> (forall a s, f s a = UB) -> foldM f l s = UB.
Proof. intros H K. destruct l; [congruence|]. cbn [foldM]. rewrite K. reflexivity. Qed.

Section Fails.
  Variable inside : list (list rpoint) -> rcell -> list (list rpoint).
  Variable wkt : rpoint -> rpoint.
  Variable s_length : rswath -> R.
  Variable cs_area : list rcell -> R.
  Variable covered : list rcell -> rswath -> list rcell.
  Variable intersects : list rcell -> list rcell -> bool.
  Variable inter : list rcell -> list rcell -> list rcell.
  Variable covered_area : list rcell -> list rswath -> rswath -> R.
  Variable fuel : nat.
  Variable sched : nat -> list nat.
  Hypothesis HP : forall n, Permutation (sched n) (seq 0 n).
  Notation swaths_planned := (plan_swaths inside wkt s_length cs_area covered intersects inter covered_area fuel sched).
  Notation best := (generateBestSwaths inside wkt s_length cs_area covered intersects inter covered_area fuel sched).
  Notation angle_cost := (plan_angle_cost inside wkt s_length cs_area covered intersects inter covered_area fuel).

  Lemma gen_hang a w c : w <= 0 -> fat c -> sg_generateSwaths inside wkt fuel false a w c = Hang.
  Proof.
    intros Hw Hc. destruct (fat_across c a Hc) as (x0 & x1 & y0 & y1 & EX & EY & Hy).
    destruct (nonpositive_width_hangs false a w c _ _ _ _ Hw EX EY) as [H _].
    unfold sg_generateSwaths. rewrite H by lra. reflexivity.
  Qed.

  Lemma step_ok : 0 < bf_step <= 2 * PI /\ 2 * PI / bf_step < 2147483648.
  Proof. pose proof PI_RGT_0. unfold bf_step. split; [lra|]. replace (2 * PI / (PI / 180)) with 360 by (field; lra). lra. Qed.

  Lemma best_const cost x : (forall a, cost a = Ok x) -> exists a, bf_computeBestAngle cost bf_step sched = Ok a.
  Proof.
    intro H. destruct step_ok as [S1 S2]. destruct (best_angle_core cost (fun _ => x) bf_step sched S1 S2 HP) as (k & _ & E & _); auto. eauto.
  Qed.

  Lemma best_first cost (bad : forall A, outcome A) : (bad = fun A => @Hang A) \/ (bad = fun A => @UB A) ->
    (forall a, cost a = bad R) -> bf_computeBestAngle cost bf_step sched = bad R.
  Proof.
    intros Hb H. destruct step_ok as [S1 S2]. destruct (bf_count_ok bf_step (proj1 S1) S2) as (E & Hz & _).
    unfold bf_computeBestAngle. rewrite E. cbn [bind]. destruct (Z.ltb_spec (Rtrunc (2 * PI / bf_step)) 0); [lia|].
    assert (E2 : Z.to_nat (Rtrunc (2 * PI / bf_step)) = 360%nat) by exact bf_n_360. rewrite E2.
    assert (Hne : sched 360%nat <> []).
    { intro E0. pose proof (Permutation_length (HP 360)) as L. rewrite E0, seq_length in L. simpl in L. lia. }
    unfold bf_costs. destruct Hb as [-> | ->].
    - rewrite foldM_first_hang; auto. intros. rewrite H. reflexivity.
    - rewrite foldM_first_UB; auto. intros. rewrite H. reflexivity.
  Qed.

  Lemma best_hang opt w c : w <= 0 -> fat c -> best (getSGObjPtr opt) w c = Hang.
  Proof.
    intros Hw Hc. unfold generateBestSwaths. destruct (isFastCompAvailable (getSGObjPtr opt)) eqn:Ef.
    - destruct (best_const (angle_cost (getSGObjPtr opt) w c) (with_sign RNum (sg_isMinimizing (getSGObjPtr opt)) 0)) as (a & ->).
      + intro a. unfold plan_angle_cost, sg_computeCostOfAngle. rewrite Ef. unfold plan_cost_fast, nsm_cost_points.
        replace (nleb RNum w (nofZ RNum 0)) with true by (symmetry; apply Rleb_true; simpl; lra). rewrite orb_true_r. reflexivity.
      + cbn [bind]. apply gen_hang; auto.
    - rewrite (best_first (angle_cost (getSGObjPtr opt) w c) (fun A => @Hang A)); auto.
      intro a. unfold plan_angle_cost, sg_computeCostOfAngle. rewrite Ef, gen_hang by auto. reflexivity.
  Qed.

  Lemma swaths_hang (rb : robot RNum) opt c mainland : rb_cov_width rb <= 0 -> fat c -> swaths_planned rb (c :: mainland) opt = Hang.
  Proof.
    intros Hw Hc. unfold plan_swaths, generateBestSwaths_cells, sg_generateSwaths_cells, rb_getCovWidth. cbn [mapM].
    destruct (o_sg_alg opt); [rewrite best_hang|rewrite gen_hang]; auto.
  Qed.

  (** Cells without points. *)
  Lemma gen_empty a w c : 0 <= w -> concat c = [] -> inside [] c = [] -> sg_generateSwaths inside wkt fuel false a w c = Ok [].
  Proof.
    intros Hw Hc Hi. unfold sg_generateSwaths.
    assert (E : sg_lines fuel false a w c = Ok []).
    { assert (Hrot : concat (cell_rotate origin (- a) c) = []) by (unfold cell_rotate; rewrite <- concat_map, Hc; reflexivity).
      unfold sg_lines, cell_getHeight, env_min, env_max. rewrite Hrot.
      assert (Ey : sg_curve_ys RNum fuel false (0 - 0) w (sg_curve_y0 RNum w) = Ok []).
      { destruct fuel; cbn [sg_curve_ys]; unfold sg_curve_y0;
        (replace (nltb RNum _ _) with false by (symmetry; apply Rltb_false; simpl; lra)); reflexivity. }
      rewrite Ey. reflexivity. }
    rewrite E. cbn [bind]. rewrite Hi. reflexivity.
  Qed.

  Lemma best_empty opt w c : 0 <= w -> concat c = [] -> inside [] c = [] ->
    (o_sg_obj opt = N_SWATH_MOD -> c = []) ->
    best (getSGObjPtr opt) w c = Ok [] \/ best (getSGObjPtr opt) w c = UB.
  Proof.
    intros Hw Hc Hi Hm. unfold generateBestSwaths.
    assert (H : (exists x, forall a, angle_cost (getSGObjPtr opt) w c a = Ok x) \/ forall a, angle_cost (getSGObjPtr opt) w c a = UB).
    { unfold plan_angle_cost, sg_computeCostOfAngle, getSGObjPtr. destruct (o_sg_obj opt); cbn [isFastCompAvailable].
      - left. rewrite (Hm eq_refl). unfold plan_cost_fast, nsm_cost_points. cbn [orb bind]. eexists. reflexivity.
      - left. eexists. intro a. rewrite gen_empty by auto. cbn [bind]. reflexivity.
      - left. eexists. intro a. rewrite gen_empty by auto. cbn [bind]. reflexivity.
      - right. intro a. rewrite gen_empty by auto. reflexivity.
      - left. eexists. intro a. rewrite gen_empty by auto. cbn [bind]. reflexivity. }
    destruct H as [(x & Hx)|Hu].
    - destruct (best_const _ x Hx) as (a & ->). cbn [bind]. left. apply gen_empty; auto.
    - right. rewrite (best_first _ (fun A => @UB A)); auto.
  Qed.

  Lemma swaths_empty (rb : robot RNum) opt mainland : 0 <= rb_cov_width rb ->
    (forall c, In c mainland -> concat c = [] /\ inside [] c = [] /\ (o_sg_obj opt = N_SWATH_MOD -> c = [])) ->
    (exists sbc, swaths_planned rb mainland opt = Ok sbc /\ concat sbc = []) \/ swaths_planned rb mainland opt = UB.
  Proof.
    intros Hw H. unfold plan_swaths, generateBestSwaths_cells, sg_generateSwaths_cells, rb_getCovWidth.
    destruct (o_sg_alg opt).
    - induction mainland as [|c m IH]; [left; exists []; split; reflexivity|]. cbn [mapM].
      destruct (H c (or_introl eq_refl)) as (H1 & H2 & H3).
      destruct (best_empty opt (rb_cov_width rb) c Hw H1 H2 H3) as [-> | ->]; [|right; reflexivity]. cbn [bind].
      destruct IH as [(sbc & -> & E)| ->]; [intros; apply H; right; auto| |right; reflexivity].
      left. exists ([] :: sbc). split; auto.
    - left. induction mainland as [|c m IH]; [exists []; split; reflexivity|]. cbn [mapM].
      destruct (H c (or_introl eq_refl)) as (H1 & H2 & _). rewrite gen_empty by auto. cbn [bind].
      destruct IH as (sbc & -> & E); [intros; apply H; right; auto|]. exists ([] :: sbc). split; auto.
  Qed.
End Fails.

Section NoSwaths.
  Variable wkt : rpoint -> rpoint.
  Variable keq : rpoint -> rpoint -> bool.
  Variable near : rpoint -> rpoint -> rpoint -> bool.
  Variable node_order : list rpoint -> list rpoint.
  Variable edge_order : edges_t -> list (nat * nat).
  Variable solver : graph2d rpoint -> nat -> option (list nat).
  Hypothesis Heq : equivalence keq.
  Hypothesis Hnear : forall a b n a' b' n', keq a a' = true -> keq b b' = true -> keq n n' = true -> near a b n = near a' b' n'.
  Hypothesis Hswap : forall a b n, near a b n = near b a n.
  Hypothesis Hno : forall l, Permutation (node_order l) l.
  Hypothesis Heo : forall e, Permutation (edge_order e) (edge_pairs e).

  Lemma no_swaths rings sbc : concat sbc = [] -> (forall ring, In ring (concat rings) -> ring <> []) ->
    plan_genRoute wkt keq near node_order edge_order solver rings sbc = UB.
  Proof.
    intros Hs Hr.
    destruct (shortest_graph_connects rpoint R (p_default RNum) keq dist_cost (fun p => cells_closestPointOnBorderTo p rings)
      near node_order edge_order Heq Hnear Hswap Hno Heo None (concat rings) sbc) as (h & g & E & _); auto.
    - rewrite Hs. intros s [].
    - discriminate.
    - eapply no_swaths_refuted; eauto.
  Qed.
End NoSwaths.
