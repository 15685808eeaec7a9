(** Theorems about the route planner (C28, C29, C90, C91). *)
From Coq Require Import List Arith ZArith Lia Bool Permutation.
From Verif Require Import Outcome ListAux Swath_Model Graph_Model Graph_Spec Graph_Proofs2 Graph2D_Model Graph2D_Spec
  Route_Model RoutePlanner_Model RoutePlanner_Spec RoutePlanner_Proofs2 RoutePlanner_Proofs4
  RoutePlanner_Proofs5 RoutePlanner_Proofs6.
Import ListNotations.

(** C28: the coverage graph of pairwise different swath ends, middles and depot
    always exists and always has a round tour; any round tour through it is turned
    into a route that drives every swath exactly once, in the order of the
    tour, in the given direction unless redirecting is allowed, and that starts
    and ends at the start/end point when there is one. *)
Theorem coverage_route_complete :
  forall (P W : Type) (p_default : P) (w_nonpos : W -> bool) (w_zero : W) (wkt : P -> P)
    (keq : P -> P -> bool) (mid : P -> P -> P) (far : P),
  equivalence keq ->
  forall (sbc : list (list (swath P W))) (rse : option P) (redirect : bool),
  let ss := concat sbc in
  let n := length ss in
  let depot := match rse with Some p => p | None => far end in
  ss <> [] ->
  Forall (fun s => w_nonpos (sw_width s) = false /\ sw_path s <> [] /\
    keq (wkt (first_pt p_default s)) (first_pt p_default s) = true /\
    keq (wkt (last_pt p_default s)) (last_pt p_default s) = true) ss ->
  pairwise_different keq (depot :: flat_map (swath_nodes p_default mid) ss) ->
  forall Inv : graph2d P -> Prop,
  answers keq Inv (opt_list rse ++ end_points p_default ss) ->
  forall sg, Inv sg ->
  exists g sg1, createCoverageGraph p_default keq mid far rse sbc sg redirect = Ok (g, sg1) /\ Inv sg1 /\
    g2_numNodes g = 3 * n + 1 /\ (exists ids, round_tour (g_edges (g2_graph g)) (3 * n) ids) /\
    forall ids, round_tour (g_edges (g2_graph g)) (3 * n) ids ->
    exists r sg2 ks ps,
      transformSolutionToRoute p_default w_nonpos w_zero wkt keq rse ids sbc g sg1 = Ok (r, sg2) /\ Inv sg2 /\
      Permutation (map fst ks) (seq 0 n) /\
      Forall2 (driven wkt ss) (concat (r_swaths r)) ks /\
      (redirect = false -> Forall (fun kb => snd kb = false) ks) /\
      mapM (g2_indexToNode g) ids = Ok ps /\ map fst ks = flat_map (mids_at keq p_default mid ss) ps /\
      (forall p, rse = Some p -> exists a b, r_startPoint p_default r = Ok a /\ keq a p = true /\
         r_endPoint p_default r = Ok b /\ keq b p = true).
Proof. intros. apply complete; auto. Qed.
Print Assumptions coverage_route_complete.

(** C90: the shortest-path graph exists, knows every base point, connects every
    pair of joined points, and has no edge that is not a segment of base edges;
    its costs are distances between base points. *)
Theorem shortest_graph_connects :
  forall (P W : Type) (p_default : P) (keq : P -> P -> bool) (dc : P -> P -> Z)
    (closest : P -> outcome P) (near : P -> P -> P -> bool) (node_order : list P -> list P)
    (edge_order : list (nat * list (nat * Z)) -> list (nat * nat)),
  equivalence keq ->
  (forall a b n a' b' n', keq a a' = true -> keq b b' = true -> keq n n' = true -> near a b n = near a' b' n') ->
  (forall a b n, near a b n = near b a n) ->
  (forall l, Permutation (node_order l) l) ->
  (forall e, Permutation (edge_order e) (edge_pairs e)) ->
  forall (rse : option P) (rings : list (list P)) (sbc : list (list (swath P W))),
  let ss := concat sbc in
  let base := base p_default closest rse rings ss in
  (forall s, In s ss -> (exists c, closest (first_pt p_default s) = Ok c) /\ (exists c, closest (last_pt p_default s) = Ok c)) ->
  (forall p, rse = Some p -> exists c, closest p = Ok c) ->
  (forall ring, In ring rings -> ring <> []) ->
  exists h g, createShortestGraph p_default keq dc closest near node_order edge_order rse rings sbc = Ok g /\
    g2_run keq dc h = Ok g /\
    forallb two_way h = true /\ forallb (fun o => negb (is_query o)) h = true /\
    (forall p, In p (inserted h) <-> exists q, base p q \/ base q p) /\
    (forall p q, joined keq p_default closest near rse rings ss p q -> exists l c a b,
       pt_route keq dc h l c /\ hd_error l = Some a /\ keq a p = true /\ hd_error (rev l) = Some b /\ keq b q = true) /\
    (forall p q c, g2_edge keq dc h p q = Some c -> segment keq p_default closest near rse rings ss p q /\
       exists x y, In x (inserted h) /\ In y (inserted h) /\ c = dc x y).
Proof.
  intros P W d keq dc closest near no eo Heq Hnear Hswap Hno Heo rse rings sbc ss base Hc1 Hc2 Hr.
  destruct (graph_ok d keq dc closest near no eo Heq Hnear Hno Heo rse rings ss sbc Hswap eq_refl Hc1 Hc2 Hr)
    as (h0 & h & g & E & R & HF & Hed & _ & Hb & Hgr & Hs & Hj).
  assert (Hall : forallb edit (h0 ++ h) = true).
  { rewrite forallb_app, Hed, andb_true_r. eapply base_ops_edit; eauto. }
  exists (h0 ++ h), g. split; auto. split; auto. destruct (edits_two_way _ Hall) as [T1 T2]. split; auto. split; auto. split; [|split].
  - intro p. rewrite inserted_app. split.
    + intro Hp. assert (Hp0 : In p (inserted h0)) by (apply in_app_or in Hp; destruct Hp as [|Hp]; auto; apply Hgr; auto).
      apply in_flat_map in Hp0. destruct Hp0 as (o & Ho & Hp0). rewrite Forall_forall in HF.
      destruct (HF o Ho) as (a & b & -> & Hab). simpl in Hp0. destruct Hp0 as [<-|[<-|[]]]; [exists b|exists a]; auto.
    + intros (q & Hpq). apply in_or_app. left. apply in_flat_map.
      destruct Hpq as [Hpq|Hpq]; apply Hb in Hpq; eexists; (split; [exact Hpq|]); simpl; auto.
  - intros p q J. apply (reach_route keq dc Heq). apply Hj; auto.
  - intros p q c He. split.
    + eapply (segs_edge keq dc); [| |exact Hall|exact Hs|exact He].
      * intros. apply seg_sym; auto.
      * intros. eapply seg_same; eauto.
    + apply (edge_dist keq dc (h0 ++ h) p q c Hall He).
Qed.
Print Assumptions shortest_graph_connects.

(** C91: the whole of genRoute.  When the start/end point and all swath ends are
    joined along the borders, and distances leave room below the planner's
    infinity, then whatever round tour the solver returns for the coverage
    graph (there is one), genRoute returns a route that drives every swath
    exactly once and starts and ends at the start/end point. *)
Theorem genRoute_complete :
  forall (P W : Type) (p_default : P) (w_nonpos : W -> bool) (w_zero : W) (wkt : P -> P)
    (keq : P -> P -> bool) (dc : P -> P -> Z) (mid : P -> P -> P) (far : P)
    (closest : P -> outcome P) (near : P -> P -> P -> bool) (node_order : list P -> list P)
    (edge_order : list (nat * list (nat * Z)) -> list (nat * nat)) (solver : graph2d P -> nat -> option (list nat)),
  equivalence keq ->
  (forall a b n a' b' n', keq a a' = true -> keq b b' = true -> keq n n' = true -> near a b n = near a' b' n') ->
  (forall a b n, near a b n = near b a n) ->
  (forall l, Permutation (node_order l) l) ->
  (forall e, Permutation (edge_order e) (edge_pairs e)) ->
  forall (rse : option P) (rings : list (list P)) (sbc : list (list (swath P W))) (redirect : bool) (D : Z),
  let ss := concat sbc in
  let n := length ss in
  let depot := match rse with Some p => p | None => far end in
  let base := base p_default closest rse rings ss in
  let stops := opt_list rse ++ end_points p_default ss in
  ss <> [] ->
  Forall (fun s => w_nonpos (sw_width s) = false /\ sw_path s <> [] /\
    keq (wkt (first_pt p_default s)) (first_pt p_default s) = true /\
    keq (wkt (last_pt p_default s)) (last_pt p_default s) = true) ss ->
  pairwise_different keq (depot :: flat_map (swath_nodes p_default mid) ss) ->
  (forall p, In p stops -> exists c, closest p = Ok c) ->
  (forall ring, In ring rings -> ring <> []) ->
  (forall p q, In p stops -> In q stops -> joined keq p_default closest near rse rings ss p q) ->
  (forall x y x' y', base x x' \/ base x' x -> base y y' \/ base y' y -> (0 <= dc x y <= D)%Z) ->
  (D * Z.of_nat (2 * (2 * n + length (concat rings) + 1)) < 1073741824)%Z ->
  exists g, g2_numNodes g = 3 * n + 1 /\
    (exists ids, round_tour (g_edges (g2_graph g)) (3 * n) ids) /\
    forall ids, solver g (3 * n) = Some ids -> round_tour (g_edges (g2_graph g)) (3 * n) ids ->
    exists r ks,
      genRoute p_default w_nonpos w_zero wkt keq dc mid far closest near node_order edge_order solver
        rse rings sbc redirect = Ok r /\
      Permutation (map fst ks) (seq 0 n) /\
      Forall2 (driven wkt ss) (concat (r_swaths r)) ks /\
      (redirect = false -> Forall (fun kb => snd kb = false) ks) /\
      (forall p, rse = Some p -> exists a b, r_startPoint p_default r = Ok a /\ keq a p = true /\
         r_endPoint p_default r = Ok b /\ keq b p = true).
Proof.
  intros P W d wn wz wkt keq dc mid far closest near no eo solver Heq Hnear Hswap Hno Heo rse rings sbc redirect D
    ss n depot base stops Hne Hok Hdiff Hc Hr Hjoin Hdc Hcap.
  assert (Hends : forall s, In s ss -> In (first_pt d s) stops /\ In (last_pt d s) stops).
  { intros s Hs. unfold stops, end_points. split; apply in_or_app; right; apply in_flat_map; exists s; simpl; auto. }
  assert (Hc1 : forall s, In s ss -> (exists c, closest (first_pt d s) = Ok c) /\ (exists c, closest (last_pt d s) = Ok c)).
  { intros s Hs. destruct (Hends s Hs). auto. }
  assert (Hc2 : forall p, rse = Some p -> exists c, closest p = Ok c).
  { intros p Hp. apply Hc. unfold stops. rewrite Hp. simpl. auto. }
  destruct (graph_ok d keq dc closest near no eo Heq Hnear Hno Heo rse rings ss sbc Hswap eq_refl Hc1 Hc2 Hr)
    as (h0 & h & sg & E & R & HF & Hed & Hlen & Hb & Hgr & Hs & Hj).
  assert (Hall : forallb edit (h0 ++ h) = true).
  { rewrite forallb_app, Hed, andb_true_r. eapply base_ops_edit; eauto. }
  assert (Hbp : forall p, In p (inserted h0) -> exists q, base p q \/ base q p).
  { intros p Hp0. apply in_flat_map in Hp0. destruct Hp0 as (o & Ho & Hp0). rewrite Forall_forall in HF.
    destruct (HF o Ho) as (a & b & -> & Hab). simpl in Hp0. destruct Hp0 as [<-|[<-|[]]]; [exists b|exists a]; auto. }
  assert (Hins : forall p q, base p q -> In p (inserted h0)).
  { intros p q Hpq. apply in_flat_map. apply Hb in Hpq. eexists; (split; [exact Hpq|]); simpl; auto. }
  assert (Hstop : forall p, In p stops -> In p (inserted h0)).
  { intros p Hp. unfold stops in Hp. apply in_app_or in Hp. destruct Hp as [Hp|Hp].
    - destruct rse as [p'|] eqn:Erse; [|destruct Hp]. destruct Hp as [<-|[]]. destruct (Hc2 p' eq_refl) as [c Hcc].
      apply (Hins p' c). apply base_start_end; auto.
    - unfold end_points in Hp. apply in_flat_map in Hp. destruct Hp as (s & Hss & Hp).
      destruct (Hc1 s Hss) as [[c1 C1] [c2 C2]]. destruct Hp as [<-|[<-|[]]].
      + apply (Hins _ c1). apply base_first; auto.
      + apply (Hins _ c2). apply base_last; auto. }
  assert (HD0 : (0 <= D)%Z).
  { destruct ss as [|s ss'] eqn:Ess; [congruence|]. destruct (Hends s) as [Hf _]; [left; auto|].
    apply Hstop in Hf. destruct (Hbp _ Hf) as [q Hq]. pose proof (Hdc _ _ _ _ Hq Hq). lia. }
  assert (Hans : answers keq (inv keq dc (h0 ++ h)) stops).
  { apply (answers_of keq dc Heq (h0 ++ h) (inserted h0) D); auto.
    - intros x Hx. rewrite inserted_app in Hx. apply in_app_or in Hx. destruct Hx; auto. apply Hgr; auto.
    - intros x y Hx Hy. destruct (Hbp x Hx) as [x' Hx'], (Hbp y Hy) as [y' Hy']. eapply Hdc; eauto.
    - eapply Z.le_lt_trans; [|exact Hcap]. apply Z.mul_le_mono_nonneg_l; auto. apply inj_le. exact Hlen.
    - intros p Hp. exists p. split; [|apply Heq]. rewrite inserted_app. apply in_or_app. auto. }
  assert (Hinv : inv keq dc (h0 ++ h) sg).
  { exists []. split; auto. split; [intros i []|]. rewrite app_nil_r. auto. }
  destruct (coverage_route_complete P W d wn wz wkt keq mid far Heq sbc rse redirect Hne Hok Hdiff _ Hans sg Hinv)
    as (g & sg1 & Eg & _ & HN & Htour & Hroute).
  change (g2_numNodes g = 3 * n + 1) in HN.
  exists g. split; auto. split; auto. intros ids Hsol Hids.
  destruct (Hroute ids Hids) as (r & sg2 & ks & ps & Er & _ & K1 & K2 & K3 & _ & _ & K4).
  exists r, ks. split; auto. unfold genRoute. rewrite E. cbn [bind]. rewrite Eg. cbn [bind fst snd].
  unfold computeBestRoute. rewrite HN. replace (3 * n + 1 =? 0) with false by (symmetry; apply Nat.eqb_neq; unfold n; lia).
  replace (3 * n + 1 - 1) with (3 * n) by lia. rewrite Hsol. cbn [bind]. fold n in Er. rewrite Er. auto.
Qed.
Print Assumptions genRoute_complete.

(** ** Examples: points are numbers on a line, two swaths 10-20 and 40-30 (drawn
    in opposite directions), start/end point 60, border 0-50-100-0. *)
Definition pl_sw (a b : nat) : swath nat nat := mkSwath nat nat 0%Z [a; b] 3 true HEADLAND.
Definition pl_sbc : list (list (swath nat nat)) := [[pl_sw 10 20]; [pl_sw 40 30]].
Definition pl_dist (a b : nat) : Z := (Z.abs (Z.of_nat a - Z.of_nat b)).
Definition pl_mid (a b : nat) : nat := (a + b) / 2.
Definition pl_near (a b n : nat) : bool := (a <? n) && (n <? b) || (b <? n) && (n <? a).
Definition pl_closest (p : nat) : outcome nat := Ok 0.
Definition pl_rings : list (list nat) := [[0; 50; 100; 0]].
Definition pl_h : list (g2op nat) :=
  [G2AddDist 10 0; G2AddDist 20 0; G2AddDist 40 0; G2AddDist 30 0; G2AddDist 0 50; G2AddDist 60 0].
Definition pl_sg : graph2d nat := Eval vm_compute in
  match g2_run Nat.eqb pl_dist pl_h with Ok g => g | _ => g2_empty end.
Definition pl_tour : list nat := [0; 1; 2; 5; 4; 3].

Lemma pl_equivalence : equivalence Nat.eqb.
Proof.
  split; [apply Nat.eqb_refl|]. split; [apply Nat.eqb_sym|].
  intros p q r H1 H2. apply Nat.eqb_eq in H1, H2. subst. apply Nat.eqb_refl.
Qed.

Lemma pl_star h pts : (forall p, In p pts -> exists c, g2_edge Nat.eqb pl_dist h p 0 = Some c) -> forallb edit h = true ->
  forall p q, In p pts -> In q pts -> reach Nat.eqb pl_dist h p q.
Proof.
  intros H Hed p q Hp Hq. destruct (H p Hp) as [c1 E1], (H q Hq) as [c2 E2].
  assert (R : forall x c, g2_edge Nat.eqb pl_dist h x 0 = Some c -> reach Nat.eqb pl_dist h x 0).
  { intros x c E. eapply reach_step; [exact E|apply reach_refl; auto]. }
  eapply (reach_trans Nat.eqb pl_dist pl_equivalence); [eapply R; eauto|].
  apply (reach_sym Nat.eqb pl_dist pl_equivalence); [apply edge_sym; auto|]. eapply R; eauto.
Qed.

Lemma pl_all (f : nat -> bool) l : forallb f l = true -> forall p, In p l -> f p = true.
Proof. intro H. apply forallb_forall. exact H. Qed.

Lemma pl_different : pairwise_different Nat.eqb (60 :: flat_map (swath_nodes 0 pl_mid) (concat pl_sbc)).
Proof. repeat constructor. Qed.

(** The hypotheses of coverage_route_complete hold with swaths drawn in opposite directions. *)
Example coverage_route_complete_ex : exists Inv sg,
  let ss := concat pl_sbc in
  equivalence Nat.eqb /\ ss <> [] /\
  Forall (fun s => Nat.eqb (sw_width s) 0 = false /\ sw_path s <> [] /\
    Nat.eqb (first_pt 0 s) (first_pt 0 s) = true /\ Nat.eqb (last_pt 0 s) (last_pt 0 s) = true) ss /\
  pairwise_different Nat.eqb (60 :: flat_map (swath_nodes 0 pl_mid) ss) /\
  answers Nat.eqb Inv (opt_list (Some 60) ++ end_points 0 ss) /\ Inv sg /\
  (do x <- createCoverageGraph 0 Nat.eqb pl_mid 1000 (Some 60) pl_sbc sg true;
   do y <- transformSolutionToRoute 0 (Nat.eqb 0) 0 (fun p => p) Nat.eqb (Some 60) pl_tour pl_sbc (fst x) (snd x);
   do l <- r_asLineString (fst y);
   Ok (map (@sw_path nat nat) (concat (r_swaths (fst y))), l)) =
  Ok ([[10; 20]; [30; 40]], [60; 0; 10; 10; 20; 20; 0; 30; 30; 40; 40; 0; 60]).
Proof.
  exists (inv Nat.eqb pl_dist pl_h), pl_sg. cbv zeta. split; [apply pl_equivalence|]. split; [discriminate|].
  split; [repeat constructor; discriminate|]. split; [apply pl_different|].
  split; [|split].
  - apply (answers_of Nat.eqb pl_dist pl_equivalence pl_h (inserted pl_h) 100); auto.
    + assert (H : forallb (fun x => forallb (fun y => (0 <=? pl_dist x y)%Z && (pl_dist x y <=? 100)%Z) (inserted pl_h)) (inserted pl_h) = true) by (vm_compute; reflexivity).
      intros x y Hx Hy. pose proof (pl_all _ _ (pl_all _ _ H x Hx) y Hy) as B. apply andb_true_iff in B.
      destruct B as [B1 B2]. apply Z.leb_le in B1, B2. lia.
    + lia.
    + vm_compute. reflexivity.
    + assert (H : forallb (fun p => existsb (Nat.eqb p) (inserted pl_h)) (opt_list (Some 60) ++ end_points 0 (concat pl_sbc)) = true) by (vm_compute; reflexivity).
      intros p Hp. pose proof (pl_all _ _ H p Hp) as B. apply existsb_exists in B. destruct B as (x & Hx & E'). exists x.
      split; auto. rewrite Nat.eqb_sym. auto.
    + assert (H : forallb (fun p => match g2_edge Nat.eqb pl_dist pl_h p 0 with Some _ => true | None => false end) (opt_list (Some 60) ++ end_points 0 (concat pl_sbc)) = true) by (vm_compute; reflexivity).
      apply pl_star; auto. intros p Hp. pose proof (pl_all _ _ H p Hp) as B. cbv beta in B.
      destruct (g2_edge Nat.eqb pl_dist pl_h p 0) as [c|]; [eauto|discriminate].
  - exists []. split; auto. split; [intros i []|]. vm_compute. reflexivity.
  - vm_compute. reflexivity.
Qed.

Definition pl_points : list nat := [10; 20; 40; 30; 0; 50; 100; 60].

Lemma pl_base p q : base 0 pl_closest (Some 60) pl_rings (concat pl_sbc) p q -> In p pl_points /\ In q pl_points.
Proof.
  unfold pl_points. intro H. destruct H as [s c Hs Hc|s c Hs Hc|ring i a b Hr Ha Hb|p c Hp Hc].
  - unfold pl_closest in Hc. assert (c = 0) by congruence. subst. destruct Hs as [<-|[<-|[]]]; simpl; tauto.
  - unfold pl_closest in Hc. assert (c = 0) by congruence. subst. destruct Hs as [<-|[<-|[]]]; simpl; tauto.
  - destruct Hr as [<-|[]]. destruct i as [|[|[|[|i]]]]; simpl in Ha, Hb; try discriminate.
    + assert (a = 0 /\ b = 50) as [-> ->] by (split; congruence). simpl; tauto.
    + assert (a = 50 /\ b = 100) as [-> ->] by (split; congruence). simpl; tauto.
    + assert (a = 100 /\ b = 0) as [-> ->] by (split; congruence). simpl; tauto.
  - unfold pl_closest in Hc. assert (c = 0) by congruence. assert (p = 60) by congruence. subst. simpl; tauto.
Qed.

Lemma pl_joined p q : In p (opt_list (Some 60) ++ end_points 0 (concat pl_sbc)) -> In q (opt_list (Some 60) ++ end_points 0 (concat pl_sbc)) ->
  joined Nat.eqb 0 pl_closest pl_near (Some 60) pl_rings (concat pl_sbc) p q.
Proof.
  assert (R : forall x, In x (opt_list (Some 60) ++ end_points 0 (concat pl_sbc)) -> joined Nat.eqb 0 pl_closest pl_near (Some 60) pl_rings (concat pl_sbc) x 0).
  { intros x Hx. apply j_base. apply in_app_or in Hx. destruct Hx as [[<-|[]]|Hx].
    - apply base_start_end; auto.
    - apply in_flat_map in Hx. destruct Hx as (s & Hs & [<-|[<-|[]]]); [apply base_first|apply base_last]; auto. }
  intros Hp Hq. eapply j_trans; [apply R; auto|]. apply j_sym. apply R; auto.
Qed.

Lemma pl_near_ok : (forall a b n a' b' n', Nat.eqb a a' = true -> Nat.eqb b b' = true -> Nat.eqb n n' = true -> pl_near a b n = pl_near a' b' n') /\
  (forall a b n, pl_near a b n = pl_near b a n).
Proof.
  split.
  - intros a b n a' b' n' H1 H2 H3. apply Nat.eqb_eq in H1, H2, H3. subst. auto.
  - intros a b n. unfold pl_near. apply orb_comm.
Qed.

(** The hypotheses of shortest_graph_connects hold: 10-0 was split at nodes in between only when near. *)
Example shortest_graph_connects_ex :
  equivalence Nat.eqb /\
  (forall a b n a' b' n', Nat.eqb a a' = true -> Nat.eqb b b' = true -> Nat.eqb n n' = true -> pl_near a b n = pl_near a' b' n') /\
  (forall a b n, pl_near a b n = pl_near b a n) /\
  (forall ring, In ring pl_rings -> ring <> []) /\
  (do g <- createShortestGraph 0 Nat.eqb pl_dist pl_closest pl_near (fun l => l) edge_pairs (Some 60) pl_rings pl_sbc;
   Ok (g2_getNodes g, map (fun p => getCostFromEdge (g_edges (g2_graph g)) (fst p) (snd p) 999) [(1, 0); (1, 2); (1, 4); (3, 5)])) =
  Ok ([10; 0; 20; 40; 30; 50; 100; 60], [10; 20; 30; 10]%Z).
Proof.
  split; [apply pl_equivalence|]. split; [apply pl_near_ok|]. split; [apply pl_near_ok|].
  split; [intros ring [<-|[]]; discriminate|]. vm_compute. reflexivity.
Qed.

(** The hypotheses of genRoute_complete hold, and this is the route. *)
Example genRoute_complete_ex :
  let ss := concat pl_sbc in
  let stops := opt_list (Some 60) ++ end_points 0 ss in
  let base := base 0 pl_closest (Some 60) pl_rings ss in
  (forall p q, In p stops -> In q stops -> joined Nat.eqb 0 pl_closest pl_near (Some 60) pl_rings ss p q) /\
  (forall x y x' y', base x x' \/ base x' x -> base y y' \/ base y' y -> (0 <= pl_dist x y <= 100)%Z) /\
  (100 * Z.of_nat (2 * (2 * length ss + length (concat pl_rings) + 1)) < g2_INF)%Z /\
  (do r <- genRoute 0 (Nat.eqb 0) 0 (fun p => p) Nat.eqb pl_dist pl_mid 1000 pl_closest pl_near (fun l => l) edge_pairs
     (fun _ _ => Some pl_tour) (Some 60) pl_rings pl_sbc true;
   do l <- r_asLineString r; Ok (map (@sw_path nat nat) (concat (r_swaths r)), l)) =
  Ok ([[10; 20]; [30; 40]], [60; 40; 10; 10; 20; 20; 30; 30; 40; 40; 60]).
Proof.
  cbv zeta. split; [apply pl_joined|]. split.
  - assert (H : forallb (fun x => forallb (fun y => (0 <=? pl_dist x y)%Z && (pl_dist x y <=? 100)%Z) pl_points) pl_points = true) by (vm_compute; reflexivity).
    intros x y x' y' Hx Hy.
    assert (In x pl_points) by (destruct Hx as [Hx|Hx]; apply pl_base in Hx; tauto).
    assert (In y pl_points) by (destruct Hy as [Hy|Hy]; apply pl_base in Hy; tauto).
    pose proof (pl_all _ _ (pl_all _ _ H x ltac:(auto)) y ltac:(auto)) as B. apply andb_true_iff in B.
    destruct B as [B1 B2]. apply Z.leb_le in B1, B2. lia.
  - split; vm_compute; reflexivity.
Qed.

(** ** C29, refuted: route planning is not safe for every input *)

(** A solver answer with fewer than two nodes is read out of range. *)
Theorem transform_short_refuted :
  forall (P W : Type) (p_default : P) (w_nonpos : W -> bool) (w_zero : W) (wkt : P -> P) (keq : P -> P -> bool)
    rse (sbc : list (list (swath P W))) g sg ids, length ids < 2 ->
  transformSolutionToRoute p_default w_nonpos w_zero wkt keq rse ids sbc g sg = UB \/
  transformSolutionToRoute p_default w_nonpos w_zero wkt keq rse ids sbc g sg = Throw OutOfRange.
Proof.
  intros P W d wn wz wkt keq rse sbc g sg [|a [|b ids]] H; simpl in H; try lia.
  - left. reflexivity.
  - unfold transformSolutionToRoute, transform_step, g2_indexToNode. simpl.
    destruct (am_find a (g2_i2n g)); [left|right]; reflexivity.
Qed.
Print Assumptions transform_short_refuted.

(** Without swaths there is no depot. *)
Theorem no_swaths_refuted :
  forall (P W : Type) (p_default : P) (w_nonpos : W -> bool) (w_zero : W) (wkt : P -> P)
    (keq : P -> P -> bool) (dc : P -> P -> Z) (mid : P -> P -> P) (far : P)
    (closest : P -> outcome P) (near : P -> P -> P -> bool) (node_order : list P -> list P)
    (edge_order : list (nat * list (nat * Z)) -> list (nat * nat)) (solver : graph2d P -> nat -> option (list nat))
    rings (sbc : list (list (swath P W))) redirect sg,
  concat sbc = [] ->
  createShortestGraph p_default keq dc closest near node_order edge_order None rings sbc = Ok sg ->
  genRoute p_default w_nonpos w_zero wkt keq dc mid far closest near node_order edge_order solver None rings sbc redirect = UB.
Proof.
  intros P W d wn wz wkt keq dc mid far closest near no eo solver rings sbc redirect sg H E.
  unfold genRoute. rewrite E. cbn [bind]. unfold createCoverageGraph. rewrite H. reflexivity.
Qed.
Print Assumptions no_swaths_refuted.

Example transform_short_ex :
  transformSolutionToRoute 0 (Nat.eqb 0) 0 (fun p => p) Nat.eqb None [0] pl_sbc pl_sg pl_sg = UB.
Proof. reflexivity. Qed.

Example no_swaths_ex :
  (do g <- createShortestGraph (W := nat) 0 Nat.eqb pl_dist pl_closest pl_near (fun l => l) edge_pairs None pl_rings [[]]; Ok (g2_numNodes g)) = Ok 3 /\
  genRoute (W := nat) 0 (Nat.eqb 0) 0 (fun p => p) Nat.eqb pl_dist pl_mid 1000 pl_closest pl_near (fun l => l) edge_pairs
    (fun _ _ => Some []) None pl_rings [[]] true = UB.
Proof. split; vm_compute; reflexivity. Qed.

(** A start/end point that coincides with the end of a swath: the depot is then
    another node, and a round tour of the solver yields a route that misses a swath. *)
Definition pl_cov : outcome (graph2d nat * graph2d nat) := Eval vm_compute in
  (do sg0 <- createShortestGraph 0 Nat.eqb pl_dist pl_closest pl_near (fun l => l) edge_pairs (Some 20) pl_rings pl_sbc;
   createCoverageGraph 0 Nat.eqb pl_mid 1000 (Some 20) pl_sbc sg0 true).
Definition pl_cov_g : graph2d nat := match pl_cov with Ok x => fst x | _ => g2_empty end.
Definition pl_cov_sg : graph2d nat := match pl_cov with Ok x => snd x | _ => g2_empty end.

Theorem start_on_swath_refuted : exists (sbc : list (list (swath nat nat))) rings p g sg ids,
  length (concat sbc) = 2 /\ In p (end_points 0 (concat sbc)) /\
  (do sg0 <- createShortestGraph 0 Nat.eqb pl_dist pl_closest pl_near (fun l => l) edge_pairs (Some p) rings sbc;
   createCoverageGraph 0 Nat.eqb pl_mid 1000 (Some p) sbc sg0 true) = Ok (g, sg) /\
  round_tour (g_edges (g2_graph g)) (g2_numNodes g - 1) ids /\
  (do x <- transformSolutionToRoute 0 (Nat.eqb 0) 0 (fun q => q) Nat.eqb (Some p) ids sbc g sg;
   Ok (map (@sw_path nat nat) (concat (r_swaths (fst x))))) = Ok [[10; 20]].
Proof.
  exists pl_sbc, pl_rings, 20, pl_cov_g, pl_cov_sg, [4; 3; 0; 1; 2].
  split; [reflexivity|]. split; [vm_compute; tauto|]. split; [vm_compute; reflexivity|]. split; [|vm_compute; reflexivity].
  split.
  - change (g2_numNodes pl_cov_g - 1) with 5. change (Permutation ([4; 3] ++ [0; 1; 2]) ([0; 1; 2] ++ [3; 4])).
    rewrite Permutation_app_comm. apply Permutation_app_head. apply perm_swap.
  - change (g2_numNodes pl_cov_g - 1) with 5.
    assert (HK : keys_unique (g_edges (g2_graph pl_cov_g))).
    { split; [vm_compute; repeat constructor; simpl; intuition discriminate|].
      intros i m H. vm_compute in H. repeat (destruct H as [H|H]; [injection H as <- <-; repeat constructor; simpl; intuition discriminate|]). destruct H. }
    intros i a b Ha Hb.
    assert (H : exists c, look (g_edges (g2_graph pl_cov_g)) a b = Some c).
    { destruct i as [|[|[|[|[|[|i]]]]]]; simpl in Ha, Hb;
        try (assert (Ea : a = a) by auto; injection Ha as <-; injection Hb as <-; vm_compute; eauto).
      destruct i; simpl in Hb; try discriminate; destruct i; discriminate. }
    destruct H as [c H]. exists c. apply look_edge_in; auto.
Qed.
Print Assumptions start_on_swath_refuted.

(** A start/end point on the first swath's start: nothing connects the route to
    it, and appending the first swath raises out_of_range (the empty route
    "ends" at the default point, which is not in the graph). *)
Theorem start_on_first_swath_refuted : exists ids,
  Permutation ids (seq 0 (g2_numNodes pl_cov_g - 1)) /\
  transformSolutionToRoute 999 (Nat.eqb 0) 0 (fun q => q) Nat.eqb (Some 20) ids pl_sbc pl_cov_g pl_cov_sg = Throw OutOfRange.
Proof.
  exists [2; 1; 0; 3; 4]. split; [|vm_compute; reflexivity].
  change (g2_numNodes pl_cov_g - 1) with 5.
  change (Permutation ([2; 1; 0] ++ [3; 4]) ([0; 1; 2] ++ [3; 4])). apply Permutation_app_tail.
  eapply perm_trans; [apply perm_swap|]. eapply perm_trans; [apply perm_skip, perm_swap|]. apply perm_swap.
Qed.
Print Assumptions start_on_first_swath_refuted.

(** A ring without points raises out_of_range; a null solution is dereferenced. *)
Theorem planner_inputs_refuted :
  createShortestGraph 0 Nat.eqb pl_dist pl_closest pl_near (fun l => l) edge_pairs None [[]] pl_sbc = Throw OutOfRange /\
  genRoute 0 (Nat.eqb 0) 0 (fun p => p) Nat.eqb pl_dist pl_mid 1000 pl_closest pl_near (fun l => l) edge_pairs
    (fun _ _ => None) (Some 60) pl_rings pl_sbc true = UB.
Proof. split; vm_compute; reflexivity. Qed.
Print Assumptions planner_inputs_refuted.
