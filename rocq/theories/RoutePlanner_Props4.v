(** Theorems about best routes (properties C256 and C257). *)
From Coq Require Import List Arith ZArith Lia Bool Permutation Reals Lra.
From Verif Require Import Outcome ListAux Swath_Model Graph_Model Graph_Spec Graph_Proofs2 Graph2D_Model Graph2D_Spec Graph2D_Proofs
  Route_Model RoutePlanner_Model RoutePlanner_Spec RoutePlanner_Spec2 RoutePlanner_Spec3 RoutePlanner_Spec4 RoutePlanner_Proofs
  RoutePlanner_Proofs2 RoutePlanner_Proofs4 RoutePlanner_Proofs5 RoutePlanner_Proofs6 RoutePlanner_Proofs7 RoutePlanner_Proofs8
  RoutePlanner_Proofs9 RoutePlanner_Proofs10 RoutePlanner_Props.
Import ListNotations.

(** C256: on the conditions of genRoute_complete, when the solver returns a cheapest round tour of the
    coverage graph, then the connections of the planned route cost, altogether, at most what any connections along
    the graph of the borders cost, for any order of the swaths, driven in any directions when
    redirecting is allowed and forwards otherwise. *)
Theorem cheapest_tour_cheapest_route :
  forall (P W : Type) (p_default : P) (w_nonpos : W -> bool) (w_zero : W) (wkt : P -> P)
    (keq : P -> P -> bool) (dc : P -> P -> Z) (mid : P -> P -> P) (far : P)
    (closest : P -> outcome P) (near : P -> P -> P -> bool) (node_order : list P -> list P)
    (edge_order : list (nat * list (nat * Z)) -> list (nat * nat)) (solver : graph2d P -> nat -> option (list nat)),
  equivalence keq ->
  (forall a b n a' b' n', keq a a' = true -> keq b b' = true -> keq n n' = true -> near a b n = near a' b' n') ->
  (forall a b n, near a b n = near b a n) ->
  (forall l, Permutation (node_order l) l) ->
  (forall e, Permutation (edge_order e) (edge_pairs e)) ->
  forall (rse : option P) (rings : list (list P)) (sbc : list (list (swath P W))) (redirect : bool) (D : Z),
  let ss := concat sbc in
  let n := length ss in
  let depot := match rse with Some p => p | None => far end in
  let base := base p_default closest rse rings ss in
  let stops := opt_list rse ++ end_points p_default ss in
  ss <> [] ->
  Forall (fun s => w_nonpos (sw_width s) = false /\ sw_path s <> [] /\
    keq (wkt (first_pt p_default s)) (first_pt p_default s) = true /\
    keq (wkt (last_pt p_default s)) (last_pt p_default s) = true) ss ->
  pairwise_different keq (depot :: flat_map (swath_nodes p_default mid) ss) ->
  (forall p, In p stops -> exists c, closest p = Ok c) ->
  (forall ring, In ring rings -> ring <> []) ->
  (forall p q, In p stops -> In q stops -> joined keq p_default closest near rse rings ss p q) ->
  (forall x y x' y', base x x' \/ base x' x -> base y y' \/ base y' y -> (0 <= dc x y <= D)%Z) ->
  (D * Z.of_nat (2 * (2 * n + length (concat rings) + 1)) < 1073741824)%Z ->
  exists h sg g sg1, createShortestGraph p_default keq dc closest near node_order edge_order rse rings sbc = Ok sg /\
    g2_run keq dc h = Ok sg /\
    (forall p, In p (inserted h) <-> exists q, base p q \/ base q p) /\
    (forall p q c, g2_edge keq dc h p q = Some c -> segment keq p_default closest near rse rings ss p q /\
       exists x y, In x (inserted h) /\ In y (inserted h) /\ c = dc x y /\
         (keq x p = true /\ keq y q = true \/ keq x q = true /\ keq y p = true)) /\
    createCoverageGraph p_default keq mid far rse sbc sg redirect = Ok (g, sg1) /\ g2_numNodes g = 3 * n + 1 /\
    forall ids, solver g (3 * n) = Some ids -> cheapest_tour (g_edges (g2_graph g)) (3 * n) ids ->
    exists r cs ks c,
      genRoute p_default w_nonpos w_zero wkt keq dc mid far closest near node_order edge_order solver
        rse rings sbc redirect = Ok r /\
      Permutation (map fst ks) (seq 0 n) /\ Forall2 (driven wkt ss) cs ks /\
      r_swaths r = map (fun c => [c]) cs /\
      trip_cost p_default (leg_cost keq dc h) rse cs (r_conns r) c /\
      forall cs' ks' ws' c', Permutation (map fst ks') (seq 0 n) -> Forall2 (driven wkt ss) cs' ks' ->
        (redirect = false -> Forall (fun kb => snd kb = false) ks') ->
        trip_cost p_default (leg_cost keq dc h) rse cs' ws' c' -> (c <= c')%Z.
Proof.
  intros P W d wn wz wkt keq dc mid far closest near no eo solver Heq Hnear Hswap Hno Heo rse rings sbc redirect D
    ss n depot base stops Hne Hok Hdiff Hc Hr Hjoin Hdc Hcap.
  assert (Hends : forall s, In s ss -> In (first_pt d s) stops /\ In (last_pt d s) stops).
  { intros s Hs. unfold stops, end_points. split; apply in_or_app; right; apply in_flat_map; exists s; simpl; auto. }
  assert (Hc1 : forall s, In s ss -> (exists c, closest (first_pt d s) = Ok c) /\ (exists c, closest (last_pt d s) = Ok c)).
  { intros s Hs. destruct (Hends s Hs). auto. }
  assert (Hc2 : forall p, rse = Some p -> exists c, closest p = Ok c).
  { intros p Hp. apply Hc. unfold stops. rewrite Hp. simpl. auto. }
  destruct (graph_ok d keq dc closest near no eo Heq Hnear Hno Heo rse rings ss sbc Hswap eq_refl Hc1 Hc2 Hr)
    as (h0 & h & sg & E & R & HF & Hed & Hlen & Hb & Hgr & Hs & Hj).
  assert (Hall : forallb edit (h0 ++ h) = true).
  { rewrite forallb_app, Hed, andb_true_r. eapply base_ops_edit; eauto. }
  assert (Hbp : forall p, In p (inserted h0) -> exists q, base p q \/ base q p).
  { intros p Hp0. apply in_flat_map in Hp0. destruct Hp0 as (o & Ho & Hp0). rewrite Forall_forall in HF.
    destruct (HF o Ho) as (a & b & -> & Hab). simpl in Hp0. destruct Hp0 as [<-|[<-|[]]]; [exists b|exists a]; auto. }
  assert (Hins : forall p q, base p q -> In p (inserted h0)).
  { intros p q Hpq. apply in_flat_map. apply Hb in Hpq. eexists; (split; [exact Hpq|]); simpl; auto. }
  assert (Hstop : forall p, In p stops -> In p (inserted h0)).
  { intros p Hp. unfold stops in Hp. apply in_app_or in Hp. destruct Hp as [Hp|Hp].
    - destruct rse as [p'|] eqn:Erse; [|destruct Hp]. destruct Hp as [<-|[]]. destruct (Hc2 p' eq_refl) as [c Hcc].
      apply (Hins p' c). apply base_start_end; auto.
    - unfold end_points in Hp. apply in_flat_map in Hp. destruct Hp as (s & Hss & Hp).
      destruct (Hc1 s Hss) as [[c1 C1] [c2 C2]]. destruct Hp as [<-|[<-|[]]].
      + apply (Hins _ c1). apply base_first; auto.
      + apply (Hins _ c2). apply base_last; auto. }
  assert (HD0 : (0 <= D)%Z).
  { destruct ss as [|s ss'] eqn:Ess; [congruence|]. destruct (Hends s) as [Hf _]; [left; auto|].
    apply Hstop in Hf. destruct (Hbp _ Hf) as [q Hq]. pose proof (Hdc _ _ _ _ Hq Hq). lia. }
  assert (Hans : answers keq (inv keq dc (h0 ++ h)) stops).
  { apply (answers_of keq dc Heq (h0 ++ h) (inserted h0) D); auto.
    - intros x Hx. rewrite inserted_app in Hx. apply in_app_or in Hx. destruct Hx; auto. apply Hgr; auto.
    - intros x y Hx Hy. destruct (Hbp x Hx) as [x' Hx'], (Hbp y Hy) as [y' Hy']. eapply Hdc; eauto.
    - eapply Z.le_lt_trans; [|exact Hcap]. apply Z.mul_le_mono_nonneg_l; auto. apply inj_le. exact Hlen.
    - intros p Hp. exists p. split; [|apply Heq]. rewrite inserted_app. apply in_or_app. auto. }
  assert (Hinv : inv keq dc (h0 ++ h) sg).
  { exists []. split; auto. split; [intros i []|]. rewrite app_nil_r. auto. }
  assert (Hreach : forall p q, In p stops -> In q stops -> reach keq dc (h0 ++ h) p q) by (intros p q Hp Hq; apply Hj; auto).
  assert (HI2 : forall x, In x (inserted (h0 ++ h)) -> In x (inserted h0)).
  { intros x Hx. rewrite inserted_app in Hx. apply in_app_or in Hx. destruct Hx; auto. apply Hgr; auto. }
  assert (HD2 : forall x y, In x (inserted h0) -> In y (inserted h0) -> (0 <= dc x y <= D)%Z).
  { intros x y Hx Hy. destruct (Hbp x Hx) as [x' Hx'], (Hbp y Hy) as [y' Hy']. eapply Hdc; eauto. }
  assert (Hcap2 : (D * Z.of_nat (length (inserted h0)) < g2_INF)%Z).
  { eapply Z.le_lt_trans; [|exact Hcap]. apply Z.mul_le_mono_nonneg_l; auto. apply inj_le. exact Hlen. }
  assert (Hst2 : forall p, In p stops -> exists x, In x (inserted (h0 ++ h)) /\ keq x p = true).
  { intros p Hp. exists p. split; [|apply Heq]. rewrite inserted_app. apply in_or_app. auto. }
  assert (Hleast : forall a b, In a stops -> In b stops -> exists c, least_cost keq dc (h0 ++ h) a b c).
  { intros a b Ha Hb0. destruct (Hans sg a b Hinv) as [_ (sg' & c & Ec & _)].
    - exists a. split; auto. apply Heq.
    - exists b. split; auto. apply Heq.
    - exists c. apply (costs_of keq dc Heq (h0 ++ h) (inserted h0) D stops Hall HI2 HD2 HD0 Hcap2 Hst2 Hreach sg a b sg' c Hinv Ha Hb0 Ec). }
  assert (Hpos : forall x y c, g2_edge keq dc (h0 ++ h) x y = Some c -> (0 <= c)%Z).
  { intros x y c He. destruct (edge_dist keq dc (h0 ++ h) x y c Hall He) as (x' & y' & Hx & Hy & ->). apply HD2; auto. }
  assert (Hn : 0 < n) by (unfold n; destruct ss; [congruence|simpl; lia]).
  destruct (complete_tours d wn wz wkt keq mid far Heq sbc rse redirect Hne Hok Hdiff _ Hans sg Hinv)
    as (g & sg1 & Eg & Hinv1 & HN & Htour & Hroute).
  change (g2_numNodes g = 3 * n + 1) in HN.
  exists (h0 ++ h), sg, g, sg1. split; [exact E|]. split; [exact R|]. split; [|split; [|split; [exact Eg|split; [exact HN|]]]].
  { intro p. rewrite inserted_app. split.
    - intro Hp. apply Hbp. apply in_app_or in Hp. destruct Hp as [|Hp]; auto. apply Hgr; auto.
    - intros (q & Hpq). apply in_or_app. left. destruct Hpq as [Hpq|Hpq]; [eapply Hins; eauto|].
      apply in_flat_map. apply Hb in Hpq. eexists; (split; [exact Hpq|]); simpl; auto. }
  { intros p q c He. split.
    - eapply (segs_edge keq dc); [| |exact Hall|exact Hs|exact He].
      + intros. apply seg_sym; auto.
      + intros. eapply seg_same; eauto.
    - apply (edge_dist_ends keq dc (h0 ++ h) p q c Hall He). }
  assert (Harcs : forall i j c, edge_in (g_edges (g2_graph g)) i j c <->
    exists p q, g2_indexToNode g i = Ok p /\ g2_indexToNode g j = Ok q /\
      cov_arc keq d mid far rse redirect ss (least_cost keq dc (h0 ++ h)) p q c).
  { apply (coverage_arcs d keq mid far Heq ss rse redirect (inv keq dc (h0 ++ h)) (least_cost keq dc (h0 ++ h))) with (sbc := sbc) (sg := sg) (sg' := sg1); auto.
    + intros x a b x' c I0 Ha Hb0 EC.
      exact (costs_of keq dc Heq (h0 ++ h) (inserted h0) D stops Hall HI2 HD2 HD0 Hcap2 Hst2 Hreach x a b x' c I0 Ha Hb0 EC).
    + intros a b c a' b' c'. apply least_cost_fun; auto. }
  destruct (depot_node d keq mid far Heq ss rse redirect (least_cost keq dc (h0 ++ h)) sbc sg g sg1 eq_refl Hdiff Hn Eg Harcs)
    as (HN0 & Hfun & B1 & B2 & B3 & B4).
  assert (HN3 : g2_numNodes g - 1 = 3 * n) by lia. rewrite HN3 in *.
  intros ids Hsol [Hids (c0 & Hc0 & Hbest)].
  destruct (Hroute ids Hids) as (r & sg2 & ks & ps & Er & _ & K1 & K2 & K3 & _ & _ & K4 & L & L1 & L2 & L3 & L4 & L5 & L6 & L7).
  assert (HT : exists cs, r_swaths r = map (fun c => [c]) cs /\ linked_by d (way keq dc (h0 ++ h)) rse cs (r_conns r)).
  { apply (transform_legs d wn wz wkt keq mid Heq ss) with (Inv := inv keq dc (h0 ++ h)) (ids := ids) (sbc := sbc) (g := g) (sg := sg1) (sg2 := sg2); auto.
    - eapply Forall_impl; [|exact Hok]. intros s Hx. apply Hx.
    - eapply Forall_impl; [|exact Hok]. intros s Hx. apply Hx.
    - eapply Forall_impl; [|exact Hok]. intros s Hx. apply Hx.
    - intros p s Ep Hs0. unfold depot in Hdiff. rewrite Ep in Hdiff. inversion Hdiff as [|? ? F1 F2]; subst.
      rewrite Forall_forall in F1. split; apply F1; apply in_flat_map; exists s; split; auto; unfold swath_nodes; simpl; auto.
    - apply (ways_of keq dc Heq (h0 ++ h) (inserted h0) D); auto.
    - intros a b w [[_ Hw]|[Ka _]] K; [exact Hw|congruence].
    - intros a b w [[Ka _]|(_ & _ & c & p & q & _ & _ & _ & Hq & Kq & _)] K; [congruence|eauto].
    - intro Z. rewrite Z in K2. assert (Zk : ks = []) by (clear - K2; inversion K2; auto). rewrite Zk in K1. simpl in K1. apply Permutation_nil in K1.
      apply Hne. apply length_zero_iff_nil. rewrite <- (seq_length (length ss) 0). unfold ss. rewrite K1. reflexivity. }
  destruct HT as (cs & HT1 & HT2).
  assert (Hok' : Forall (fun s => sw_path s <> [] /\
    keq (wkt (first_pt d s)) (first_pt d s) = true /\ keq (wkt (last_pt d s)) (last_pt d s) = true) ss).
  { eapply Forall_impl; [|exact Hok]. intros s Hx. apply Hx. }
  assert (Hdr : Forall2 (driven wkt ss) cs ks).
  { rewrite HT1 in K2. assert (Z : concat (map (fun c : swath P W => [c]) cs) = cs) by (clear; induction cs; simpl; congruence).
    rewrite Z in K2. exact K2. }
  destruct (trip_way d wkt keq dc mid Heq ss Hok' rse (h0 ++ h) Hleast Hpos cs ks (r_conns r) Hdr HT2) as (c & HC1 & HC2).
  assert (Hblk : L = flat_map block ks).
  { destruct (blocks_of redirect (length L) L (le_n _) L3 L4 L5 L6) as [ks0 E0].
    - intros l Hl. apply L2. simpl. apply L2. exact Hl.
    - rewrite L7, E0, windows_blocks. reflexivity. }
  assert (Hvalid : forall ks, Permutation (map fst ks) (seq 0 n) -> (redirect = false -> Forall (fun kb => snd kb = false) ks) ->
    Forall (valid ss redirect) ks).
  { intros ks0 HP HB. apply Forall_forall. intros kb Hkb. split.
    - apply (in_map fst) in Hkb. apply (Permutation_in _ HP) in Hkb. apply in_seq in Hkb. unfold n in Hkb. lia.
    - intro Hr0. specialize (HB Hr0). rewrite Forall_forall in HB. apply HB; auto. }
  assert (Hcc : c = c0).
  { apply (route_fun _ Hfun (3 * n :: ids ++ [3 * n])); [|exact Hc0].
    apply (tour_route d keq mid far ss rse redirect (least_cost keq dc (h0 ++ h)) g (3 * n) Harcs HN0 ks); auto. rewrite <- Hblk. exact L1. }
  exists r, cs, ks, c. split; [|split; [exact K1|split; [exact Hdr|split; [exact HT1|split; [exact HC1|]]]]].
  - unfold genRoute. rewrite E. cbn [bind]. rewrite Eg. cbn [bind fst snd].
    unfold computeBestRoute. rewrite HN. replace (3 * n + 1 =? 0) with false by (symmetry; apply Nat.eqb_neq; unfold n; lia).
    replace (3 * n + 1 - 1) with (3 * n) by lia. rewrite Hsol. cbn [bind]. fold n in Er. rewrite Er. auto.
  - intros cs' ks' ws' c' HP' HD' HB' HT'.
    destruct (trip_least d wkt keq dc mid Heq ss Hok' rse (h0 ++ h) Hleast cs' ks' ws' c' HD' HT') as (c2 & T2 & Hle).
    destruct (order_tour d keq mid far ss rse redirect (least_cost keq dc (h0 ++ h)) g (3 * n) Harcs HN0 B1 B2 B3 B4 ks' c2 HP'
      (Hvalid ks' HP' HB') T2) as (ids' & R1 & R2).
    specialize (Hbest ids' c2 R1 R2). lia.
Qed.
Print Assumptions cheapest_tour_cheapest_route.

(** C257: when, moreover, the costs are the distances in thousandths, rounded down, then the connections of the planned
    route are altogether at most one thousandth per piece longer than any connections along the graph of the borders,
    for any order of the swaths. *)
Theorem cheapest_tour_shortest_route :
  forall (P W : Type) (p_default : P) (w_nonpos : W -> bool) (w_zero : W) (wkt : P -> P)
    (keq : P -> P -> bool) (dc : P -> P -> Z) (mid : P -> P -> P) (far : P)
    (closest : P -> outcome P) (near : P -> P -> P -> bool) (node_order : list P -> list P)
    (edge_order : list (nat * list (nat * Z)) -> list (nat * nat)) (solver : graph2d P -> nat -> option (list nat)),
  forall (dist : P -> P -> R),
  equivalence keq ->
  (forall a b, dist a b = dist b a) ->
  (forall a b a' b', keq a a' = true -> keq b b' = true -> dist a b = dist a' b') ->
  (forall a b n a' b' n', keq a a' = true -> keq b b' = true -> keq n n' = true -> near a b n = near a' b' n') ->
  (forall a b n, near a b n = near b a n) ->
  (forall l, Permutation (node_order l) l) ->
  (forall e, Permutation (edge_order e) (edge_pairs e)) ->
  forall (rse : option P) (rings : list (list P)) (sbc : list (list (swath P W))) (redirect : bool) (D : Z),
  let ss := concat sbc in
  let n := length ss in
  let depot := match rse with Some p => p | None => far end in
  let base := base p_default closest rse rings ss in
  let stops := opt_list rse ++ end_points p_default ss in
  (forall x y x' y', base x x' \/ base x' x -> base y y' \/ base y' y ->
    (IZR (dc x y) <= 1000 * dist x y < IZR (dc x y) + 1)%R) ->
  ss <> [] ->
  Forall (fun s => w_nonpos (sw_width s) = false /\ sw_path s <> [] /\
    keq (wkt (first_pt p_default s)) (first_pt p_default s) = true /\
    keq (wkt (last_pt p_default s)) (last_pt p_default s) = true) ss ->
  pairwise_different keq (depot :: flat_map (swath_nodes p_default mid) ss) ->
  (forall p, In p stops -> exists c, closest p = Ok c) ->
  (forall ring, In ring rings -> ring <> []) ->
  (forall p q, In p stops -> In q stops -> joined keq p_default closest near rse rings ss p q) ->
  (forall x y x' y', base x x' \/ base x' x -> base y y' \/ base y' y -> (0 <= dc x y <= D)%Z) ->
  (D * Z.of_nat (2 * (2 * n + length (concat rings) + 1)) < 1073741824)%Z ->
  exists h sg g sg1, createShortestGraph p_default keq dc closest near node_order edge_order rse rings sbc = Ok sg /\
    g2_run keq dc h = Ok sg /\
    (forall p q c, g2_edge keq dc h p q = Some c -> segment keq p_default closest near rse rings ss p q /\
       (IZR c <= 1000 * dist p q < IZR c + 1)%R) /\
    createCoverageGraph p_default keq mid far rse sbc sg redirect = Ok (g, sg1) /\
    forall ids, solver g (3 * n) = Some ids -> cheapest_tour (g_edges (g2_graph g)) (3 * n) ids ->
    exists r cs ks,
      genRoute p_default w_nonpos w_zero wkt keq dc mid far closest near node_order edge_order solver
        rse rings sbc redirect = Ok r /\
      Permutation (map fst ks) (seq 0 n) /\ Forall2 (driven wkt ss) cs ks /\
      r_swaths r = map (fun c => [c]) cs /\
      (exists c, trip_cost p_default (leg_cost keq dc h) rse cs (r_conns r) c) /\
      forall cs' ks' ws' c', Permutation (map fst ks') (seq 0 n) -> Forall2 (driven wkt ss) cs' ks' ->
        (redirect = false -> Forall (fun kb => snd kb = false) ks') ->
        trip_cost p_default (leg_cost keq dc h) rse cs' ws' c' ->
        (total_length dist (r_conns r) <= total_length dist ws' + INR (pieces (r_conns r)) / 1000)%R.
Proof.
  intros P W d wn wz wkt keq dc mid far closest near no eo solver dist Heq Hsym Hkeq Hnear Hswap Hno Heo rse rings sbc redirect D
    ss n depot base stops Hdist Hne Hok Hdiff Hc Hr Hjoin Hdc Hcap.
  destruct (cheapest_tour_cheapest_route P W d wn wz wkt keq dc mid far closest near no eo solver Heq Hnear Hswap Hno Heo rse rings sbc redirect D
    Hne Hok Hdiff Hc Hr Hjoin Hdc Hcap) as (h & sg & g & sg1 & A1 & A2 & A3 & A4 & A5 & A6 & A7).
  assert (Hcost : forall p q c, g2_edge keq dc h p q = Some c -> (IZR c <= 1000 * dist p q < IZR c + 1)%R).
  { intros p q c He. destruct (A4 p q c He) as (_ & x & y & Hx & Hy & -> & K).
    apply A3 in Hx. apply A3 in Hy. destruct Hx as [x' Hx], Hy as [y' Hy]. pose proof (Hdist x y x' y' Hx Hy) as HD.
    destruct K as [[K1 K2]|[K1 K2]]; [rewrite <- (Hkeq x y p q K1 K2)|rewrite (Hsym p q), <- (Hkeq x y q p K1 K2)]; auto. }
  assert (Hcost' : forall p q c, g2_edge keq dc h p q = Some c -> (IZR c <= 1000 * dist p q <= IZR c + 1)%R).
  { intros p q c He. pose proof (Hcost p q c He). lra. }
  exists h, sg, g, sg1. split; auto. split; auto. split; [|split; auto].
  { intros p q c He. split; [apply (A4 p q c He)|auto]. }
  intros ids Hsol Hbest. destruct (A7 ids Hsol Hbest) as (r & cs & ks & c & B1 & B2 & B3 & B4 & B5 & B6).
  exists r, cs, ks. split; auto. split; auto. split; auto. split; auto. split; [eauto|].
  intros cs' ks' ws' c' C1 C2 C3 C4. pose proof (B6 cs' ks' ws' c' C1 C2 C3 C4) as Hle. apply IZR_le in Hle.
  pose proof (trip_length keq dc dist h Hcost' d rse cs (r_conns r) c B5).
  pose proof (trip_length keq dc dist h Hcost' d rse cs' ws' c' C4). lra.
Qed.
Print Assumptions cheapest_tour_shortest_route.

(** ** Example: the tour of the example in RoutePlanner_Props is a cheapest one, and its connections cost 80. *)
Fixpoint ex_insert (x : nat) (l : list nat) : list (list nat) :=
  match l with [] => [[x]] | y :: t => (x :: l) :: map (cons y) (ex_insert x t) end.
Fixpoint ex_orders (l : list nat) : list (list nat) :=
  match l with [] => [[]] | x :: t => flat_map (ex_insert x) (ex_orders t) end.
Fixpoint ex_costs (e : list (nat * list (nat * Z))) (l : list nat) : list Z :=
  match l with
  | i :: ((j :: _) as t) => flat_map (fun c => map (Z.add c) (ex_costs e t))
      (flat_map (fun im => if fst im =? i then flat_map (fun jc => if fst jc =? j then [snd jc] else []) (snd im) else []) e)
  | _ => [0%Z]
  end.

Lemma ex_insert_in x : forall l1 l2, In (l1 ++ x :: l2) (ex_insert x (l1 ++ l2)).
Proof.
  induction l1 as [|y l1 IH]; intro l2; simpl.
  - destruct l2; simpl; auto.
  - right. apply in_map. apply IH.
Qed.

Lemma ex_orders_all : forall l l', Permutation l' l -> In l' (ex_orders l).
Proof.
  induction l as [|x l IH]; intros l' H.
  - apply Permutation_sym, Permutation_nil in H. subst. simpl. auto.
  - destruct (in_split x l') as (l1 & l2 & ->); [apply (Permutation_in _ (Permutation_sym H)); left; auto|].
    simpl. apply in_flat_map. exists (l1 ++ l2). split; [|apply ex_insert_in]. apply IH.
    apply Permutation_cons_inv with x. eapply Permutation_trans; [apply Permutation_middle|exact H].
Qed.

Lemma ex_costs_all e l c : Graph_Spec.route (edge_in e) l c -> In c (ex_costs e l).
Proof.
  induction 1 as [i|i m l c c' (mm & H1 & H2) Hr IH]; [simpl; auto|].
  apply in_flat_map. exists c. split; [|apply in_map; exact IH].
  apply in_flat_map. exists (i, mm). split; auto. simpl. rewrite Nat.eqb_refl. apply in_flat_map. exists (m, c). split; auto.
  simpl. rewrite Nat.eqb_refl. simpl. auto.
Qed.

Lemma ex_costs_sound e : forall l i c, In c (ex_costs e (i :: l)) -> Graph_Spec.route (edge_in e) (i :: l) c.
Proof.
  induction l as [|j l IH]; intros i c H.
  - destruct H as [<-|[]]. apply route_one.
  - change (In c (flat_map (fun c => map (Z.add c) (ex_costs e (j :: l)))
      (flat_map (fun im => if fst im =? i then flat_map (fun jc => if fst jc =? j then [snd jc] else []) (snd im) else []) e))) in H.
    apply in_flat_map in H. destruct H as (c1 & H1 & H2). apply in_map_iff in H2. destruct H2 as (c2 & <- & H2).
    apply route_cons; [|apply IH; exact H2]. apply in_flat_map in H1. destruct H1 as ([i' m] & Hi & H1). simpl in H1.
    destruct (Nat.eqb_spec i' i) as [->|]; [|destruct H1]. apply in_flat_map in H1. destruct H1 as ([j' c'] & Hj & H1). simpl in H1.
    destruct (Nat.eqb_spec j' j) as [->|]; [|destruct H1]. destruct H1 as [<-|[]]. exists m. auto.
Qed.

Definition bt_graph : graph2d nat :=
  match (do sg <- createShortestGraph 0 Nat.eqb pl_dist pl_closest pl_near (fun l => l) edge_pairs (Some 60) pl_rings pl_sbc;
         createCoverageGraph 0 Nat.eqb pl_mid 1000 (Some 60) pl_sbc sg true) with
  | Ok x => fst x | _ => g2_empty end.

Example cheapest_tour_cheapest_route_ex :
  let ss := concat pl_sbc in
  let stops := opt_list (Some 60) ++ end_points 0 ss in
  let base := base 0 pl_closest (Some 60) pl_rings ss in
  ss <> [] /\
  pairwise_different Nat.eqb (60 :: flat_map (swath_nodes 0 pl_mid) ss) /\
  (forall p q, In p stops -> In q stops -> joined Nat.eqb 0 pl_closest pl_near (Some 60) pl_rings ss p q) /\
  (forall x y x' y', base x x' \/ base x' x -> base y y' \/ base y' y -> (0 <= pl_dist x y <= 100)%Z) /\
  g2_numNodes bt_graph = 7 /\ ex_costs (g_edges (g2_graph bt_graph)) (6 :: pl_tour ++ [6]) = [80%Z] /\
  cheapest_tour (g_edges (g2_graph bt_graph)) 6 pl_tour.
Proof.
  cbv zeta. split; [discriminate|]. split; [apply pl_different|].
  split; [apply genRoute_complete_ex|]. split; [apply genRoute_complete_ex|]. split; [vm_compute; reflexivity|].
  split; [vm_compute; reflexivity|].
  assert (R : Graph_Spec.route (edge_in (g_edges (g2_graph bt_graph))) (6 :: pl_tour ++ [6]) 80).
  { apply ex_costs_sound. vm_compute. auto. }
  split; [split|].
  - apply NoDup_Permutation_bis; [repeat constructor; simpl; intuition discriminate|simpl; lia|intros x Hx; vm_compute in Hx |- *; tauto].
  - apply (route_arcs _ _ _ R).
  - exists 80%Z. split; auto. intros ids' c' [HP _] HR'.
    assert (H : forallb (fun ids => forallb (Z.leb 80) (ex_costs (g_edges (g2_graph bt_graph)) (6 :: ids ++ [6]))) (ex_orders (seq 0 6)) = true)
      by (vm_compute; reflexivity).
    rewrite forallb_forall in H. specialize (H ids' (ex_orders_all _ _ HP)). rewrite forallb_forall in H.
    apply Z.leb_le. apply H. apply ex_costs_all. exact HR'.
Qed.

(** Distances that are rounded by half a thousandth: their conditions hold as well. *)
Definition bt_dist (x y : nat) : R := ((IZR (pl_dist x y) + / 2) / 1000)%R.
Example cheapest_tour_shortest_route_ex :
  (forall a b, bt_dist a b = bt_dist b a) /\
  (forall a b a' b', Nat.eqb a a' = true -> Nat.eqb b b' = true -> bt_dist a b = bt_dist a' b') /\
  (forall x y, (IZR (pl_dist x y) <= 1000 * bt_dist x y < IZR (pl_dist x y) + 1)%R) /\
  total_length bt_dist [[60; 40; 10]; [20; 30]; [40; 60]] = (82 / 1000)%R /\
  pieces [[60; 40; 10]; [20; 30]; [40; 60]] = 4.
Proof.
  split; [|split; [|split; [|split]]].
  - intros a b. unfold bt_dist. replace (pl_dist b a) with (pl_dist a b); [reflexivity|]. unfold pl_dist. lia.
  - intros a b a' b' Ha Hb. apply Nat.eqb_eq in Ha. apply Nat.eqb_eq in Hb. subst. reflexivity.
  - intros x y. unfold bt_dist. lra.
  - unfold total_length, bt_dist. cbn [map fold_right walk_length].
    change (pl_dist 60 40) with 20%Z. change (pl_dist 40 10) with 30%Z. change (pl_dist 20 30) with 10%Z.
    change (pl_dist 40 60) with 20%Z. lra.
  - reflexivity.
Qed.
