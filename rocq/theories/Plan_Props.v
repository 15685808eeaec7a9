(** Theorems about planning in one call (src/fields2cover.cpp). *)
From Coq Require Import List Arith ZArith Lia Bool Reals Lra Psatz Permutation.
From Verif Require Import Outcome ListAux Num Swath_Model Graph_Model Graph_Spec Graph2D_Model Graph2D_Spec Route_Model RoutePlanner_Model
  RoutePlanner_Spec Point_Model Angle_Model Angle_Spec Angle_Props Objective_Model Objective_Spec SwathGen_Model SwathGen_Spec SwathGen_Proofs
  SwathGen_Proofs2 SwathGen_Props Robot_Model Transform_Model Plan_Model Plan_Spec Plan_Proofs Plan_Proofs2 Plan_Proofs3.
Import ListNotations.
Open Scope R_scope.

Lemma Forall2_in_l {A B} (Q : A -> B -> Prop) l l' : Forall2 Q l l' -> forall x, In x l -> exists y, In y l' /\ Q x y.
Proof. induction 1; simpl; [tauto|]. intros z [->|Hz]; [eauto|]. destruct (IHForall2 z Hz) as (y' & ? & ?). eauto. Qed.
Lemma Forall2_in_r {A B} (Q : A -> B -> Prop) l l' : Forall2 Q l l' -> forall y, In y l' -> exists x, In x l /\ Q x y.
Proof. induction 1; simpl; [tauto|]. intros z [->|Hz]; [eauto|]. destruct (IHForall2 z Hz) as (y' & ? & ?). eauto. Qed.

(** [q] is on a polyline whichever way it is driven. *)
Lemma on_segment_sym (a b q : pt) : on_segment a b q -> on_segment b a q.
Proof.
  intros (t & Ht & X & Y & Z). exists (1 - t). split; [lra|]. rewrite X, Y, Z.
  destruct a as [ax ay az], b as [bx by_ bz]; unfold px, py, pz in *; cbn in *. split; [|split]; ring.
Qed.
Lemma on_line_snoc (l : list pt) a b q : on_line (l ++ [a; b]) q <-> on_line (l ++ [a]) q \/ on_segment a b q.
Proof.
  induction l as [|x l IH]; simpl; [tauto|]. destruct l as [|y l]; simpl in *; tauto.
Qed.
Lemma on_line_rev (l : list pt) q : on_line l q -> on_line (rev l) q.
Proof.
  induction l as [|a l IH]; [auto|]. destruct l as [|b l]; [intros []|].
  intros [H|H].
  - cbn [rev]. rewrite <- app_assoc. apply on_line_snoc. right. apply on_segment_sym. auto.
  - cbn [rev] in *. rewrite <- app_assoc. apply on_line_snoc. left. auto.
Qed.

Section Plan.
  Variable buffer : list rcell -> R -> list rcell.
  Variable inside : list (list rpoint) -> rcell -> list (list rpoint).
  Variable wkt : rpoint -> rpoint.
  Variable s_length : rswath -> R.
  Variable cs_area : list rcell -> R.
  Variable covered : list rcell -> rswath -> list rcell.
  Variable intersects : list rcell -> list rcell -> bool.
  Variable inter : list rcell -> list rcell -> list rcell.
  Variable covered_area : list rcell -> list rswath -> rswath -> R.
  Variable sched : nat -> list nat.
  Variable keq : rpoint -> rpoint -> bool.
  Variable near : rpoint -> rpoint -> rpoint -> bool.
  Variable node_order : list rpoint -> list rpoint.
  Variable edge_order : edges_t -> list (nat * nat).
  Variable solver : graph2d rpoint -> nat -> option (list nat).
  Notation plan fuel := (planCovRoute buffer inside wkt s_length cs_area covered intersects inter covered_area fuel sched
    keq near node_order edge_order solver).
  Notation cell_ok := (cell_ok s_length cs_area covered intersects inter covered_area inside wkt).

  Hypothesis HP : forall n, Permutation (sched n) (seq 0 n).
  Hypothesis Heq : equivalence keq.
  Hypothesis Hnear : forall a b n a' b' n', keq a a' = true -> keq b b' = true -> keq n n' = true -> near a b n = near a' b' n'.
  Hypothesis Hswap : forall a b n, near a b n = near b a n.
  Hypothesis Hno : forall l, Permutation (node_order l) l.
  Hypothesis Heo : forall e, Permutation (edge_order e) (edge_pairs e).

  (** C193: the one-call planner.  For a robot with a coverage width, and a positive number of
      headland tracks if a constant headland is asked for: the mainland and the rings are what the
      options say; if the cells of the mainland can be planned, each has the swaths of the chosen
      direction; if these can be routed, there is a round tour, and for any the
      solver finds the result is a route that drives every one of the swaths
      exactly once, however many rounds beyond a bound the loops are granted. *)
  Theorem plan_route_complete (rb : robot RNum) cells opt :
    0 < rb_cov_width rb -> (o_hg_alg opt = HG_CONST -> (1 <= o_hg_swaths opt)%Z) ->
    exists mainland rings, headland_parts buffer (rb_width rb) cells opt mainland rings /\
    (Forall (plannable inside opt (rb_cov_width rb)) mainland ->
     exists sbc n0, Forall2 (cell_ok opt (rb_cov_width rb)) mainland sbc /\
     (routable wkt keq near (fun p => cells_closestPointOnBorderTo p rings) (concat rings) (concat sbc) ->
      let n := length (concat sbc) in
      exists g, g2_numNodes g = (3 * n + 1)%nat /\ (exists ids, round_tour (g_edges (g2_graph g)) (3 * n) ids) /\
      forall ids, solver g (3 * n)%nat = Some ids -> round_tour (g_edges (g2_graph g)) (3 * n) ids ->
      exists r, drives_all wkt (concat sbc) r /\ forall fuel, (n0 <= fuel)%nat -> plan fuel rb cells opt = Ok r)).
  Proof.
    intros Hw Hh. destruct (headland_ok buffer rb cells opt Hh) as (mainland & rings & EH & PH).
    exists mainland, rings. split; auto. intro HM.
    destruct (swaths_ok inside wkt s_length cs_area covered intersects inter covered_area sched HP rb opt mainland Hw HM) as (sbc & n0 & F & ES).
    exists sbc, n0. split; auto. intros HR n.
    destruct (route_ok wkt keq near node_order edge_order solver Heq Hnear Hswap Hno Heo rings sbc) as (g & G1 & G2 & G3); auto.
    { intros s Hs. apply in_concat in Hs. destruct Hs as (l & Hl & Hs).
      destruct (Forall2_in_r _ _ _ F l Hl) as (c & _ & a & lines & cost & _ & (_ & _ & SW) & _).
      destruct (swaths_of_width _ _ _ _ SW s Hs) as [-> _]. auto. }
    exists g. split; auto. split; auto. intros ids Hs Ht. destruct (G3 ids Hs Ht) as (r & Er & Dr).
    exists r. split; auto. intros fuel Hf. unfold planCovRoute. rewrite EH. cbn [bind fst snd]. rewrite ES by auto. exact Er.
  Qed.

  (** C194: coverage.  With an exact text round trip and clipping that is faithful to a region: in each cell of
      the mainland there are parallel lines, in the chosen direction and not more than one width apart, such that
      every point of the bounding box is within half a width of one of them, and
      whatever part of these lines is in the region is driven. *)
  Theorem plan_route_covers (region : rcell -> list (list rpoint) -> list rpoint -> rpoint -> Prop) mainland sbc opt w r :
    (forall p, wkt p = p) -> clips inside region ->
    Forall2 (cell_ok opt w) mainland sbc -> drives_all wkt (concat sbc) r ->
    forall c, In c mainland -> exists a lines, laid a w c lines /\
      (o_sg_alg opt = GIVEN_ANGLE -> a = o_sg_angle opt) /\
      (forall x0 x1 y0 y1, extent (along a) (concat c) x0 x1 -> extent (across_of a) (concat c) y0 y1 -> y0 < y1 ->
         forall q, x0 <= along a q <= x1 -> y0 <= across_of a q <= y1 ->
         exists line, In line lines /\ within (w / 2) line q) /\
      forall line q, In line lines -> on_line line q -> region c lines line q ->
        exists s, In s (concat (r_swaths r)) /\ on_line (sw_path s) q /\ sw_width s = w.
  Proof.
    intros Hid Hc F (ks & PK & D) c Hin.
    destruct (Forall2_in_l _ _ _ F c Hin) as (l & Hl & a & lines & cost & CH & (LA & GAP & SW) & _).
    exists a, lines. split; auto. split; [intro Ea; unfold chosen in CH; rewrite Ea in CH; auto|]. split; auto.
    intros line q Hline Hq Hr. destruct (Hc lines c line q Hline Hq Hr) as (piece & Hp & Hqp).
    apply In_nth_error in Hp. destruct Hp as (i & Hi). destruct SW as [_ SW]. specialize (SW i piece Hi).
    set (s := mkSwath rpoint R (Z.of_nat i) (map wkt piece) w true MAINLAND) in *.
    assert (Hs : In s (concat sbc)) by (apply in_concat; exists l; split; [auto|eapply nth_error_In; eauto]).
    apply In_nth_error in Hs. destruct Hs as (k & Hk).
    assert (HkI : In k (map fst ks)).
    { apply (Permutation_in _ (Permutation_sym PK)), in_seq. split; [lia|]. apply nth_error_Some. congruence. }
    apply in_map_iff in HkI. destruct HkI as ((k' & b) & Ek & Hkb). simpl in Ek. subst k'.
    destruct (Forall2_in_r _ _ _ D (k, b) Hkb) as (x & Hx & s' & Es' & Px & Wx & _). cbn [fst snd] in *.
    rewrite Hk in Es'. injection Es' as <-. exists x. split; auto.
    assert (E : map wkt (map wkt piece) = piece) by (rewrite map_map; erewrite map_ext; [apply map_id|]; intro; simpl; rewrite !Hid; auto).
    rewrite Px. cbn [sw_path s]. rewrite E. split; [destruct b; [apply on_line_rev|]; auto|]. rewrite Wx. auto.
  Qed.

  (** C195 (findings, see the witnesses below): no route when fewer than one headland track is asked for; ... *)
  Theorem plan_no_tracks (rb : robot RNum) cells opt fuel :
    o_hg_alg opt = HG_CONST -> (o_hg_swaths opt < 1)%Z -> plan fuel rb cells opt = UB.
  Proof. intros H1 H2. unfold planCovRoute. rewrite headland_bad by auto. reflexivity. Qed.

  (** ... endless loops when the robot has no coverage width, like a default constructed one; ... *)
  Theorem plan_no_width (rb : robot RNum) cells opt fuel mainland rings c cs :
    headland_parts buffer (rb_width rb) cells opt mainland rings -> mainland = c :: cs -> fat c ->
    rb_cov_width rb <= 0 -> plan fuel rb cells opt = Hang.
  Proof.
    intros PH EM Hc Hw. assert (Hh : o_hg_alg opt = HG_CONST -> (1 <= o_hg_swaths opt)%Z).
    { intro E. unfold headland_parts in PH. rewrite E in PH. destruct PH as (k & ? & _). auto. }
    destruct (headland_ok buffer rb cells opt Hh) as (m & ri & EH & PH').
    destruct (headland_parts_eq buffer (rb_width rb) cells opt m ri mainland rings PH' PH) as [-> ->].
    unfold planCovRoute. rewrite EH. cbn [bind fst]. rewrite EM. rewrite swaths_hang; auto.
  Qed.

  (** ... and undefined behaviour when nothing is left inside the headland. *)
  Theorem plan_small_field (rb : robot RNum) cells opt fuel mainland rings :
    headland_parts buffer (rb_width rb) cells opt mainland rings -> 0 <= rb_cov_width rb ->
    (forall c, In c mainland -> c = [] /\ inside [] c = []) -> (forall ring, In ring (concat rings) -> ring <> []) ->
    plan fuel rb cells opt = UB.
  Proof.
    intros PH Hw HM Hr. assert (Hh : o_hg_alg opt = HG_CONST -> (1 <= o_hg_swaths opt)%Z).
    { intro E. unfold headland_parts in PH. rewrite E in PH. destruct PH as (k & ? & _). auto. }
    destruct (headland_ok buffer rb cells opt Hh) as (m & ri & EH & PH').
    destruct (headland_parts_eq buffer (rb_width rb) cells opt m ri mainland rings PH' PH) as [-> ->].
    unfold planCovRoute. rewrite EH. cbn [bind fst snd].
    destruct (swaths_empty inside wkt s_length cs_area covered intersects inter covered_area fuel sched HP rb opt mainland Hw) as [(sbc & -> & E)| ->].
    - intros c Hc. destruct (HM c Hc) as [-> E]. auto.
    - cbn [bind]. apply no_swaths; auto.
    - reflexivity.
  Qed.

  (** C198: which options matter. *)
  Theorem plan_options (rb : robot RNum) cells opt opt' fuel :
    o_hg_alg opt = o_hg_alg opt' -> (o_hg_alg opt = HG_CONST -> o_hg_swaths opt = o_hg_swaths opt') ->
    o_sg_alg opt = o_sg_alg opt' -> (o_sg_alg opt = BRUTE_FORCE -> o_sg_obj opt = o_sg_obj opt') ->
    (o_sg_alg opt = GIVEN_ANGLE -> o_sg_angle opt = o_sg_angle opt') ->
    plan fuel rb cells opt = plan fuel rb cells opt'.
  Proof.
    intros H1 H2 H3 H4 H5. unfold planCovRoute.
    assert (E1 : plan_headland buffer rb cells opt = plan_headland buffer rb cells opt').
    { unfold plan_headland. rewrite <- H1. destruct (o_hg_alg opt); auto. rewrite H2; auto. }
    rewrite E1. destruct (plan_headland buffer rb cells opt') as [[m ri]| | |]; auto. cbn [bind fst snd].
    f_equal. unfold plan_swaths, getSGObjPtr. rewrite <- H3. destruct (o_sg_alg opt); [rewrite H4|rewrite H5]; auto.
  Qed.
End Plan.

Print Assumptions plan_route_complete.
Print Assumptions plan_route_covers.
Print Assumptions plan_no_tracks.
Print Assumptions plan_no_width.
Print Assumptions plan_small_field.
Print Assumptions plan_options.

(** A field of 2 x 1, a robot 1 wide, no headland, swaths along the long side: one swath in the middle. *)
Definition ex_buffer (cs : list rcell) (d : R) : list rcell := cs.
Definition ex_piece : list rpoint := [mkPoint (N := RNum) 0 (/ 2) 0; mkPoint (N := RNum) 2 (/ 2) 0].
Definition ex_inside (lines : list (list rpoint)) (c : rcell) : list (list rpoint) := [ex_piece].
Definition ex_keq (p q : rpoint) : bool :=
  (if Req_EM_T (px p) (px q) then true else false) && (if Req_EM_T (py p) (py q) then true else false) &&
  (if Req_EM_T (pz p) (pz q) then true else false).
Definition ex_near (a b n : rpoint) : bool := true.
Definition ex_robot : robot RNum := mkRobot (N := RNum) String.EmptyString 1 1 1 1 1 None.
Definition ex_options : options := mkOptions DECOMP_NONE 0 HG_NONE 0 GIVEN_ANGLE N_SWATH 0 SHORTEST_ROUTE DUBINS.
Definition ex_swath : rswath := mkSwath rpoint R 0 ex_piece 1 true MAINLAND.
Definition in_box (p : pt) : Prop := 0 <= px p <= 2 /\ 0 <= py p <= 1.

Lemma ex_keq_spec p q : ex_keq p q = true <-> p = q.
Proof.
  unfold ex_keq. destruct p as [a b c], q as [a' b' c']. unfold px, py, pz. cbn.
  destruct (Req_EM_T a a'), (Req_EM_T b b'), (Req_EM_T c c'); cbn; split; intro H; try discriminate; try congruence.
Qed.
Lemma ex_keq_equiv : equivalence ex_keq.
Proof.
  split; [|split].
  - intro p. apply ex_keq_spec. auto.
  - intros p q. destruct (ex_keq p q) eqn:E, (ex_keq q p) eqn:E'; auto.
    + apply ex_keq_spec in E. subst. rewrite <- E'. symmetry. apply ex_keq_spec. auto.
    + apply ex_keq_spec in E'. subst. rewrite <- E. apply ex_keq_spec. auto.
  - intros p q r H1 H2. apply ex_keq_spec in H1, H2. subst. apply ex_keq_spec. auto.
Qed.

Lemma on_border_box q : on_border (rect 2 1) q -> in_box q.
Proof.
  intros (r & [<-|[]] & H). unfold in_box.
  destruct H as [H|[H|[H|[H|[]]]]]; destruct H as (t & Ht & X & Y & _); rewrite X, Y; cbn; lra.
Qed.

Lemma ex_closest p : exists q, cells_closestPointOnBorderTo p [rect 2 1] = Ok q /\ in_box q.
Proof.
  destruct (closest_on_borders p [rect 2 1]) as (q & E & (c & [<-|[]] & B) & _).
  - discriminate.
  - intros c [<-|[]]. split; [discriminate|]. intros r [<-|[]]. split; [simpl; lia|].
    intros a b Ha Hb. simpl in Ha, Hb. intuition (subst; reflexivity).
  - exists q. split; auto. apply on_border_box; auto.
Qed.

Lemma ex_base x y : base (mkPoint (N := RNum) 0 0 0) (fun p => cells_closestPointOnBorderTo p [rect 2 1]) None (concat [rect 2 1]) [ex_swath] x y ->
  in_box x /\ in_box y.
Proof.
  intro H. destruct H as [s c [<-|[]] Hc|s c [<-|[]] Hc|ring i a b [<-|[]] Ha Hb|p c H].
  - destruct (ex_closest (first_pt (mkPoint (N := RNum) 0 0 0) ex_swath)) as (q & E & B). rewrite Hc in E. injection E as ->.
    split; auto. unfold in_box; cbn; lra.
  - destruct (ex_closest (last_pt (mkPoint (N := RNum) 0 0 0) ex_swath)) as (q & E & B). rewrite Hc in E. injection E as ->.
    split; auto. unfold in_box; cbn; lra.
  - do 5 (destruct i; [injection Ha as <-; try discriminate Hb; injection Hb as <-; unfold in_box; cbn; lra|]). destruct i; discriminate.
  - discriminate.
Qed.

Lemma box_dist x y : in_box x -> in_box y -> sqrt (dist2 x y) <= 3.
Proof.
  intros ((A & B) & (C & D)) ((A' & B') & (C' & D')). rewrite <- (sqrt_square 3) by lra. apply sqrt_le_1_alt. unfold dist2.
  assert (H1 : (px x - px y) * (px x - px y) <= 4) by nra.
  assert (H2 : (py x - py y) * (py x - py y) <= 1) by nra. lra.
Qed.

Lemma ex_routable : routable (fun p => p) ex_keq ex_near (fun p => cells_closestPointOnBorderTo p [rect 2 1]) (concat [rect 2 1]) [ex_swath].
Proof.
  assert (K : forall p q : rpoint, px p <> px q \/ py p <> py q -> ex_keq p q = false).
  { intros p q H. destruct (ex_keq p q) eqn:E; auto. apply ex_keq_spec in E. subst. destruct H; congruence. }
  split; [discriminate|]. split; [|split; [|split; [|split; [|split]]]].
  - intros s [<-|[]]. split; [discriminate|]. split; apply ex_keq_spec; auto.
  - repeat constructor; apply K; cbn; lra.
  - intros p _. destruct (ex_closest p) as (q & E & _). eauto.
  - intros ring [<-|[]]. discriminate.
  - intros p q Hp Hq.
    assert (J : forall n, In n (end_points (mkPoint (N := RNum) 0 0 0) [ex_swath]) ->
       joined ex_keq (mkPoint (N := RNum) 0 0 0) (fun p => cells_closestPointOnBorderTo p [rect 2 1]) ex_near None (concat [rect 2 1]) [ex_swath]
         n (mkPoint (N := RNum) 0 0 0)).
    { intros n Hn. destruct (ex_closest n) as (c & E & _).
      apply j_near with (b := mkPoint (N := RNum) 2 0 0) (m := c); [|left|reflexivity].
      - apply base_ring with (ring := hd [] (rect 2 1)) (i := 0%nat); [left|..]; reflexivity.
      - destruct Hn as [<-|[<-|[]]]; [apply base_first|apply base_last]; auto; left; reflexivity. }
    apply j_trans with (mkPoint (N := RNum) 0 0 0); [|apply j_sym]; auto.
  - exists 3. split; [lra|]. split.
    + intros x y x' y' Hx Hy. apply box_dist; [destruct Hx as [H|H]|destruct Hy as [H|H]]; apply ex_base in H; tauto.
    + cbn [length concat app rect Nat.add Nat.mul]. unfold g2_INF. rewrite INR_IZR_INZ. cbn [Z.of_nat]. simpl. lra.
Qed.

Section Ex.
  Variable s_length : rswath -> R.
  Variable cs_area : list rcell -> R.
  Variable covered : list rcell -> rswath -> list rcell.
  Variable intersects : list rcell -> list rcell -> bool.
  Variable inter : list rcell -> list rcell -> list rcell.
  Variable covered_area : list rcell -> list rswath -> rswath -> R.

  Example plan_route_complete_ex :
    equivalence ex_keq /\ 0 < rb_cov_width ex_robot /\ headland_parts ex_buffer 1 [rect 2 1] ex_options [rect 2 1] [rect 2 1] /\
    Forall (plannable ex_inside ex_options 1) [rect 2 1] /\
    forall sbc, Forall2 (cell_ok s_length cs_area covered intersects inter covered_area ex_inside (fun p => p) ex_options 1) [rect 2 1] sbc ->
      sbc = [[ex_swath]] /\
      routable (fun p => p) ex_keq ex_near (fun p => cells_closestPointOnBorderTo p [rect 2 1]) (concat [rect 2 1]) (concat sbc).
  Proof.
    split; [apply ex_keq_equiv|]. split; [cbn; lra|]. split; [split; auto|]. split.
    { constructor; [|constructor]. split; [discriminate|]. split; discriminate. }
    intros sbc H. inversion H as [|? l ? sbc' HC HT]; subst. inversion HT; subst.
    destruct HC as (a & lines & cost & _ & (_ & _ & SL & SW) & _).
    specialize (SW 0%nat ex_piece eq_refl). destruct l as [|s [|? ?]]; try discriminate. injection SW as ->.
    split; [reflexivity|apply ex_routable].
  Qed.

  (** The pieces are the part of the line in the middle that is in the rectangle. *)
  Example plan_route_covers_ex : clips (fun lines c => lines) (fun c lines line q => in_box q) /\
    (exists line q, In line [ex_piece] /\ on_line line q /\ in_box q).
  Proof.
    split.
    - intros lines c line q H1 H2 _. exists line. auto.
    - exists ex_piece, (mkPoint (N := RNum) 1 (/ 2) 0). split; [left; auto|]. split.
      + left. exists (/ 2). cbn. lra.
      + unfold in_box. cbn. lra.
  Qed.
End Ex.

Example plan_no_tracks_ex : o_hg_alg default_options = HG_CONST /\
  (o_hg_swaths (mkOptions DECOMP_NONE 0 HG_CONST 0 BRUTE_FORCE N_SWATH_MOD 0 SHORTEST_ROUTE DUBINS) < 1)%Z.
Proof. split; [reflexivity|reflexivity]. Qed.
Example plan_no_width_ex : headland_parts ex_buffer (rb_width (rb_default RNum)) [rect 2 1] ex_options [rect 2 1] [rect 2 1] /\
  fat (rect 2 1) /\ rb_cov_width (rb_default RNum) <= 0.
Proof.
  split; [split; auto|]. split; [|cbn; lra].
  exists (mkPoint (N := RNum) 0 0 0), (mkPoint (N := RNum) 2 0 0), (mkPoint (N := RNum) 2 1 0). simpl. repeat split; auto. lra.
Qed.
(** Three headland tracks of width 1 leave nothing of a field of 2 x 1, nor the ring in the second track. *)
Example plan_small_field_ex : headland_parts (fun _ _ => []) 1 [rect 2 1] default_options [] [] /\ 0 <= rb_cov_width ex_robot.
Proof. split; [|cbn; lra]. exists 1%nat. cbn. repeat split; lia. Qed.
Example plan_options_ex : exists opt, opt <> default_options /\ o_hg_alg opt = o_hg_alg default_options /\
  o_hg_swaths opt = o_hg_swaths default_options /\ o_sg_alg opt = o_sg_alg default_options /\ o_sg_obj opt = o_sg_obj default_options.
Proof.
  exists (mkOptions DECOMP_NONE 1 HG_CONST 3 BRUTE_FORCE N_SWATH_MOD 1 SHORTEST_ROUTE REEDS_SHEPP). repeat split; discriminate.
Qed.

(** C195: the planner does not give a route for every robot, field and options, whatever the libraries answer.
    With the default robot, the calls below do not return, or run into undefined behaviour. *)
Theorem plan_always_routes_refuted s_length cs_area covered intersects inter covered_area sched node_order edge_order solver :
  (forall n, Permutation (sched n) (seq 0 n)) ->
  exists buffer inside wkt keq near (rb rb' : robot RNum) cells opt opt', forall fuel,
    planCovRoute buffer inside wkt s_length cs_area covered intersects inter covered_area fuel sched keq near node_order edge_order solver rb cells opt = Hang /\
    planCovRoute buffer inside wkt s_length cs_area covered intersects inter covered_area fuel sched keq near node_order edge_order solver rb' cells opt' = UB.
Proof.
  intro HP. exists ex_buffer, ex_inside, (fun p => p), ex_keq, ex_near, (rb_default RNum), ex_robot, [rect 2 1], ex_options,
    (mkOptions DECOMP_NONE 0 HG_CONST 0 BRUTE_FORCE N_SWATH_MOD 0 SHORTEST_ROUTE DUBINS).
  intro fuel. split.
  - destruct plan_no_width_ex as (H1 & H2 & H3). eapply plan_no_width; eauto.
  - apply plan_no_tracks; reflexivity.
Qed.
Print Assumptions plan_always_routes_refuted.
