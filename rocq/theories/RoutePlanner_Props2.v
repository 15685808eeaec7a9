(** Theorems about the costs of the route planner's graphs (C175). *)
From Coq Require Import List Arith ZArith Lia Bool Permutation.
From Verif Require Import Outcome ListAux Swath_Model Graph_Model Graph_Spec Graph_Proofs2 Graph2D_Model Graph2D_Spec
  Route_Model RoutePlanner_Model RoutePlanner_Spec RoutePlanner_Spec2 RoutePlanner_Proofs2 RoutePlanner_Proofs4
  RoutePlanner_Proofs5 RoutePlanner_Proofs6 RoutePlanner_Proofs7 RoutePlanner_Proofs8 RoutePlanner_Props.
Import ListNotations.

(** C175: the problem handed to the solver is the intended one.  The coverage graph
    has exactly the arcs of [cov_arc], and the cost of each is 0 along a swath (and at
    the far depot), and otherwise the least cost of a route along the border graph,
    whose edges lie on segments of the borders and cost their length. *)
Theorem coverage_costs :
  forall (P W : Type) (p_default : P) (keq : P -> P -> bool) (dc : P -> P -> Z) (mid : P -> P -> P) (far : P)
    (closest : P -> outcome P) (near : P -> P -> P -> bool) (node_order : list P -> list P)
    (edge_order : list (nat * list (nat * Z)) -> list (nat * nat)),
  equivalence keq ->
  (forall a b n a' b' n', keq a a' = true -> keq b b' = true -> keq n n' = true -> near a b n = near a' b' n') ->
  (forall a b n, near a b n = near b a n) ->
  (forall l, Permutation (node_order l) l) ->
  (forall e, Permutation (edge_order e) (edge_pairs e)) ->
  forall (rse : option P) (rings : list (list P)) (sbc : list (list (swath P W))) (redirect : bool) (D : Z),
  let ss := concat sbc in
  let n := length ss in
  let depot := match rse with Some p => p | None => far end in
  let base := base p_default closest rse rings ss in
  let stops := opt_list rse ++ end_points p_default ss in
  ss <> [] ->
  pairwise_different keq (depot :: flat_map (swath_nodes p_default mid) ss) ->
  (forall p, In p stops -> exists c, closest p = Ok c) ->
  (forall ring, In ring rings -> ring <> []) ->
  (forall p q, In p stops -> In q stops -> joined keq p_default closest near rse rings ss p q) ->
  (forall x y x' y', base x x' \/ base x' x -> base y y' \/ base y' y -> (0 <= dc x y <= D)%Z) ->
  (D * Z.of_nat (2 * (2 * n + length (concat rings) + 1)) < 1073741824)%Z ->
  exists h sg g sg1,
    createShortestGraph p_default keq dc closest near node_order edge_order rse rings sbc = Ok sg /\
    g2_run keq dc h = Ok sg /\
    (forall p q c, g2_edge keq dc h p q = Some c -> segment keq p_default closest near rse rings ss p q /\
       exists x y, In x (inserted h) /\ In y (inserted h) /\ c = dc x y) /\
    createCoverageGraph p_default keq mid far rse sbc sg redirect = Ok (g, sg1) /\
    forall i j c, edge_in (g_edges (g2_graph g)) i j c <->
      exists p q, g2_indexToNode g i = Ok p /\ g2_indexToNode g j = Ok q /\
        cov_arc keq p_default mid far rse redirect ss (least_cost keq dc h) p q c.
Proof.
  intros P W d keq dc mid far closest near no eo Heq Hnear Hswap Hno Heo rse rings sbc redirect D
    ss n depot base stops Hne Hdiff Hc Hr Hjoin Hdc Hcap.
  assert (Hends : forall s, In s ss -> In (first_pt d s) stops /\ In (last_pt d s) stops).
  { intros s Hs. unfold stops, end_points. split; apply in_or_app; right; apply in_flat_map; exists s; simpl; auto. }
  assert (Hc1 : forall s, In s ss -> (exists c, closest (first_pt d s) = Ok c) /\ (exists c, closest (last_pt d s) = Ok c)).
  { intros s Hs. destruct (Hends s Hs). auto. }
  assert (Hc2 : forall p, rse = Some p -> exists c, closest p = Ok c).
  { intros p Hp. apply Hc. unfold stops. rewrite Hp. simpl. auto. }
  destruct (graph_ok d keq dc closest near no eo Heq Hnear Hno Heo rse rings ss sbc Hswap eq_refl Hc1 Hc2 Hr)
    as (h0 & h & sg & E & R & HF & Hed & Hlen & Hb & Hgr & Hs & Hj).
  assert (Hall : forallb edit (h0 ++ h) = true).
  { rewrite forallb_app, Hed, andb_true_r. eapply base_ops_edit; eauto. }
  assert (Hbp : forall p, In p (inserted h0) -> exists q, base p q \/ base q p).
  { intros p Hp0. apply in_flat_map in Hp0. destruct Hp0 as (o & Ho & Hp0). rewrite Forall_forall in HF.
    destruct (HF o Ho) as (a & b & -> & Hab). simpl in Hp0. destruct Hp0 as [<-|[<-|[]]]; [exists b|exists a]; auto. }
  assert (Hins : forall p q, base p q -> In p (inserted h0)).
  { intros p q Hpq. apply in_flat_map. apply Hb in Hpq. eexists; (split; [exact Hpq|]); simpl; auto. }
  assert (Hstop : forall p, In p stops -> In p (inserted h0)).
  { intros p Hp. unfold stops in Hp. apply in_app_or in Hp. destruct Hp as [Hp|Hp].
    - destruct rse as [p'|] eqn:Erse; [|destruct Hp]. destruct Hp as [<-|[]]. destruct (Hc2 p' eq_refl) as [c Hcc].
      apply (Hins p' c). apply base_start_end; auto.
    - unfold end_points in Hp. apply in_flat_map in Hp. destruct Hp as (s & Hss & Hp).
      destruct (Hc1 s Hss) as [[c1 C1] [c2 C2]]. destruct Hp as [<-|[<-|[]]].
      + apply (Hins _ c1). apply base_first; auto.
      + apply (Hins _ c2). apply base_last; auto. }
  assert (HD0 : (0 <= D)%Z).
  { destruct ss as [|s ss'] eqn:Ess; [congruence|]. destruct (Hends s) as [Hf _]; [left; auto|].
    apply Hstop in Hf. destruct (Hbp _ Hf) as [q Hq]. pose proof (Hdc _ _ _ _ Hq Hq). lia. }
  assert (B1 : forall x, In x (inserted (h0 ++ h)) -> In x (inserted h0)).
  { intros x Hx. rewrite inserted_app in Hx. apply in_app_or in Hx. destruct Hx; auto. apply Hgr; auto. }
  assert (B2 : forall x y, In x (inserted h0) -> In y (inserted h0) -> (0 <= dc x y <= D)%Z).
  { intros x y Hx Hy. destruct (Hbp x Hx) as [x' Hx'], (Hbp y Hy) as [y' Hy']. eapply Hdc; eauto. }
  assert (B3 : (D * Z.of_nat (length (inserted h0)) < g2_INF)%Z).
  { eapply Z.le_lt_trans; [|exact Hcap]. apply Z.mul_le_mono_nonneg_l; auto. apply inj_le. exact Hlen. }
  assert (B4 : forall p, In p stops -> exists x, In x (inserted (h0 ++ h)) /\ keq x p = true).
  { intros p Hp. exists p. split; [|apply Heq]. rewrite inserted_app. apply in_or_app. auto. }
  assert (B5 : forall p q, In p stops -> In q stops -> reach keq dc (h0 ++ h) p q) by (intros; apply Hj; auto).
  assert (Hans : answers keq (inv keq dc (h0 ++ h)) stops) by (eapply answers_of; eauto).
  assert (Hinv : inv keq dc (h0 ++ h) sg).
  { exists []. split; auto. split; [intros i []|]. rewrite app_nil_r. auto. }
  destruct (create_ok d keq mid far Heq ss rse _ Hans sbc redirect sg eq_refl Hinv) as (g & sg1 & Eg & _).
  exists (h0 ++ h), sg, g, sg1. split; auto. split; auto. split; [|split; auto].
  - intros p q c He. split.
    + eapply (segs_edge keq dc); [| |exact Hall|exact Hs|exact He].
      * intros. apply seg_sym; auto.
      * intros. eapply seg_same; eauto.
    + apply (edge_dist keq dc (h0 ++ h) p q c Hall He).
  - apply (coverage_arcs d keq mid far Heq ss rse redirect (inv keq dc (h0 ++ h)) (least_cost keq dc (h0 ++ h))) with (sbc := sbc) (sg := sg) (sg' := sg1); auto.
    + intros x a b x' c I0 Ha Hb0 EC. exact (costs_of keq dc Heq (h0 ++ h) (inserted h0) D stops Hall B1 B2 HD0 B3 B4 B5 x a b x' c I0 Ha Hb0 EC).
    + intros a b c a' b' c'. apply least_cost_fun; auto.
Qed.
Print Assumptions coverage_costs.

(** The hypotheses hold for the two swaths of RoutePlanner_Props, and these are some of
    the costs: inside a swath, between swaths, and at the depot. *)
Example coverage_costs_ex :
  let ss := concat pl_sbc in
  let stops := opt_list (Some 60) ++ end_points 0 ss in
  let base := base 0 pl_closest (Some 60) pl_rings ss in
  pairwise_different Nat.eqb (60 :: flat_map (swath_nodes 0 pl_mid) ss) /\
  (forall p q, In p stops -> In q stops -> joined Nat.eqb 0 pl_closest pl_near (Some 60) pl_rings ss p q) /\
  (forall x y x' y', base x x' \/ base x' x -> base y y' \/ base y' y -> (0 <= pl_dist x y <= 100)%Z) /\
  (100 * Z.of_nat (2 * (2 * length ss + length (concat pl_rings) + 1)) < g2_INF)%Z /\
  (do sg <- createShortestGraph 0 Nat.eqb pl_dist pl_closest pl_near (fun l => l) edge_pairs (Some 60) pl_rings pl_sbc;
   do x <- createCoverageGraph 0 Nat.eqb pl_mid 1000 (Some 60) pl_sbc sg true;
   Ok (g2_getNodes (fst x), map (fun p => getCostFromEdge (g_edges (g2_graph (fst x))) (fst p) (snd p) 999) [(0, 1); (1, 2); (2, 3); (0, 2); (2, 6); (6, 0)])) =
  Ok ([10; 15; 20; 40; 35; 30; 60], [0; 0; 20; 10; 40; 50]%Z).
Proof.
  destruct genRoute_complete_ex as (H1 & H2 & H3 & _). cbv zeta.
  split; [apply pl_different|]. split; [exact H1|]. split; [exact H2|]. split; [exact H3|]. vm_compute. reflexivity.
Qed.
