(** Theorems about the connections of a planned route (property C241). *)
From Coq Require Import List Arith ZArith Lia Bool Permutation.
From Verif Require Import Outcome ListAux Swath_Model Graph_Model Graph_Spec Graph_Proofs2 Graph2D_Model Graph2D_Spec
  Route_Model RoutePlanner_Model RoutePlanner_Spec RoutePlanner_Spec2 RoutePlanner_Spec3 RoutePlanner_Proofs2
  RoutePlanner_Proofs4 RoutePlanner_Proofs5 RoutePlanner_Proofs6 RoutePlanner_Proofs9 RoutePlanner_Props.
Import ListNotations.

(** C241: on the conditions of genRoute_complete, the graph of the borders has only segments of base edges with
    distances for costs, and whatever round tour the solver returns, the planned route
    has one group per swath; its first connection leads from the start/end point to the
    first swath, each further one from the end of a swath to the start of the
    next one, and the last one back to the start/end point, and each is a cheapest way along the borders
    over points of the borders. *)
Theorem connections_shortest :
  forall (P W : Type) (p_default : P) (w_nonpos : W -> bool) (w_zero : W) (wkt : P -> P)
    (keq : P -> P -> bool) (dc : P -> P -> Z) (mid : P -> P -> P) (far : P)
    (closest : P -> outcome P) (near : P -> P -> P -> bool) (node_order : list P -> list P)
    (edge_order : list (nat * list (nat * Z)) -> list (nat * nat)) (solver : graph2d P -> nat -> option (list nat)),
  equivalence keq ->
  (forall a b n a' b' n', keq a a' = true -> keq b b' = true -> keq n n' = true -> near a b n = near a' b' n') ->
  (forall a b n, near a b n = near b a n) ->
  (forall l, Permutation (node_order l) l) ->
  (forall e, Permutation (edge_order e) (edge_pairs e)) ->
  forall (rse : option P) (rings : list (list P)) (sbc : list (list (swath P W))) (redirect : bool) (D : Z),
  let ss := concat sbc in
  let n := length ss in
  let depot := match rse with Some p => p | None => far end in
  let base := base p_default closest rse rings ss in
  let stops := opt_list rse ++ end_points p_default ss in
  ss <> [] ->
  Forall (fun s => w_nonpos (sw_width s) = false /\ sw_path s <> [] /\
    keq (wkt (first_pt p_default s)) (first_pt p_default s) = true /\
    keq (wkt (last_pt p_default s)) (last_pt p_default s) = true) ss ->
  pairwise_different keq (depot :: flat_map (swath_nodes p_default mid) ss) ->
  (forall p, In p stops -> exists c, closest p = Ok c) ->
  (forall ring, In ring rings -> ring <> []) ->
  (forall p q, In p stops -> In q stops -> joined keq p_default closest near rse rings ss p q) ->
  (forall x y x' y', base x x' \/ base x' x -> base y y' \/ base y' y -> (0 <= dc x y <= D)%Z) ->
  (D * Z.of_nat (2 * (2 * n + length (concat rings) + 1)) < 1073741824)%Z ->
  exists h sg, createShortestGraph p_default keq dc closest near node_order edge_order rse rings sbc = Ok sg /\
    g2_run keq dc h = Ok sg /\
    (forall p, In p (inserted h) <-> exists q, base p q \/ base q p) /\
    (forall p q c, g2_edge keq dc h p q = Some c -> segment keq p_default closest near rse rings ss p q /\
       exists x y, In x (inserted h) /\ In y (inserted h) /\ c = dc x y) /\
  exists g, g2_numNodes g = 3 * n + 1 /\
    (exists ids, round_tour (g_edges (g2_graph g)) (3 * n) ids) /\
    forall ids, solver g (3 * n) = Some ids -> round_tour (g_edges (g2_graph g)) (3 * n) ids ->
    exists r cs ks,
      genRoute p_default w_nonpos w_zero wkt keq dc mid far closest near node_order edge_order solver
        rse rings sbc redirect = Ok r /\
      Permutation (map fst ks) (seq 0 n) /\ Forall2 (driven wkt ss) cs ks /\
      r_swaths r = map (fun c => [c]) cs /\
      linked_by p_default (way keq dc h) rse cs (r_conns r).
Proof.
  intros P W d wn wz wkt keq dc mid far closest near no eo solver Heq Hnear Hswap Hno Heo rse rings sbc redirect D
    ss n depot base stops Hne Hok Hdiff Hc Hr Hjoin Hdc Hcap.
  assert (Hends : forall s, In s ss -> In (first_pt d s) stops /\ In (last_pt d s) stops).
  { intros s Hs. unfold stops, end_points. split; apply in_or_app; right; apply in_flat_map; exists s; simpl; auto. }
  assert (Hc1 : forall s, In s ss -> (exists c, closest (first_pt d s) = Ok c) /\ (exists c, closest (last_pt d s) = Ok c)).
  { intros s Hs. destruct (Hends s Hs). auto. }
  assert (Hc2 : forall p, rse = Some p -> exists c, closest p = Ok c).
  { intros p Hp. apply Hc. unfold stops. rewrite Hp. simpl. auto. }
  destruct (graph_ok d keq dc closest near no eo Heq Hnear Hno Heo rse rings ss sbc Hswap eq_refl Hc1 Hc2 Hr)
    as (h0 & h & sg & E & R & HF & Hed & Hlen & Hb & Hgr & Hs & Hj).
  assert (Hall : forallb edit (h0 ++ h) = true).
  { rewrite forallb_app, Hed, andb_true_r. eapply base_ops_edit; eauto. }
  assert (Hbp : forall p, In p (inserted h0) -> exists q, base p q \/ base q p).
  { intros p Hp0. apply in_flat_map in Hp0. destruct Hp0 as (o & Ho & Hp0). rewrite Forall_forall in HF.
    destruct (HF o Ho) as (a & b & -> & Hab). simpl in Hp0. destruct Hp0 as [<-|[<-|[]]]; [exists b|exists a]; auto. }
  assert (Hins : forall p q, base p q -> In p (inserted h0)).
  { intros p q Hpq. apply in_flat_map. apply Hb in Hpq. eexists; (split; [exact Hpq|]); simpl; auto. }
  assert (Hstop : forall p, In p stops -> In p (inserted h0)).
  { intros p Hp. unfold stops in Hp. apply in_app_or in Hp. destruct Hp as [Hp|Hp].
    - destruct rse as [p'|] eqn:Erse; [|destruct Hp]. destruct Hp as [<-|[]]. destruct (Hc2 p' eq_refl) as [c Hcc].
      apply (Hins p' c). apply base_start_end; auto.
    - unfold end_points in Hp. apply in_flat_map in Hp. destruct Hp as (s & Hss & Hp).
      destruct (Hc1 s Hss) as [[c1 C1] [c2 C2]]. destruct Hp as [<-|[<-|[]]].
      + apply (Hins _ c1). apply base_first; auto.
      + apply (Hins _ c2). apply base_last; auto. }
  assert (HD0 : (0 <= D)%Z).
  { destruct ss as [|s ss'] eqn:Ess; [congruence|]. destruct (Hends s) as [Hf _]; [left; auto|].
    apply Hstop in Hf. destruct (Hbp _ Hf) as [q Hq]. pose proof (Hdc _ _ _ _ Hq Hq). lia. }
  assert (Hans : answers keq (inv keq dc (h0 ++ h)) stops).
  { apply (answers_of keq dc Heq (h0 ++ h) (inserted h0) D); auto.
    - intros x Hx. rewrite inserted_app in Hx. apply in_app_or in Hx. destruct Hx; auto. apply Hgr; auto.
    - intros x y Hx Hy. destruct (Hbp x Hx) as [x' Hx'], (Hbp y Hy) as [y' Hy']. eapply Hdc; eauto.
    - eapply Z.le_lt_trans; [|exact Hcap]. apply Z.mul_le_mono_nonneg_l; auto. apply inj_le. exact Hlen.
    - intros p Hp. exists p. split; [|apply Heq]. rewrite inserted_app. apply in_or_app. auto. }
  assert (Hinv : inv keq dc (h0 ++ h) sg).
  { exists []. split; auto. split; [intros i []|]. rewrite app_nil_r. auto. }
  assert (Hreach : forall p q, In p stops -> In q stops -> reach keq dc (h0 ++ h) p q) by (intros p q Hp Hq; apply Hj; auto).
  exists (h0 ++ h), sg. split; [exact E|]. split; [exact R|]. split; [|split].
  { intro p. rewrite inserted_app. split.
    - intro Hp. apply Hbp. apply in_app_or in Hp. destruct Hp as [|Hp]; auto. apply Hgr; auto.
    - intros (q & Hpq). apply in_or_app. left. destruct Hpq as [Hpq|Hpq]; [eapply Hins; eauto|].
      apply in_flat_map. apply Hb in Hpq. eexists; (split; [exact Hpq|]); simpl; auto. }
  { intros p q c He. split.
    - eapply (segs_edge keq dc); [| |exact Hall|exact Hs|exact He].
      + intros. apply seg_sym; auto.
      + intros. eapply seg_same; eauto.
    - apply (edge_dist keq dc (h0 ++ h) p q c Hall He). }
  destruct (coverage_route_complete P W d wn wz wkt keq mid far Heq sbc rse redirect Hne Hok Hdiff _ Hans sg Hinv)
    as (g & sg1 & Eg & Hinv1 & HN & Htour & Hroute).
  change (g2_numNodes g = 3 * n + 1) in HN.
  exists g. split; auto. split; auto. intros ids Hsol Hids.
  destruct (Hroute ids Hids) as (r & sg2 & ks & ps & Er & _ & K1 & K2 & K3 & _ & _ & K4).
  assert (HT : exists cs, r_swaths r = map (fun c => [c]) cs /\ linked_by d (way keq dc (h0 ++ h)) rse cs (r_conns r)).
  { apply (transform_legs d wn wz wkt keq mid Heq ss) with (Inv := inv keq dc (h0 ++ h)) (ids := ids) (sbc := sbc) (g := g) (sg := sg1) (sg2 := sg2); auto.
    - eapply Forall_impl; [|exact Hok]. intros s Hx. apply Hx.
    - eapply Forall_impl; [|exact Hok]. intros s Hx. apply Hx.
    - eapply Forall_impl; [|exact Hok]. intros s Hx. apply Hx.
    - intros p s Ep Hs0. unfold depot in Hdiff. rewrite Ep in Hdiff. inversion Hdiff as [|? ? F1 F2]; subst.
      rewrite Forall_forall in F1. split; apply F1; apply in_flat_map; exists s; split; auto; unfold swath_nodes; simpl; auto.
    - apply (ways_of keq dc Heq (h0 ++ h) (inserted h0) D); auto.
      + intros x Hx. rewrite inserted_app in Hx. apply in_app_or in Hx. destruct Hx; auto. apply Hgr; auto.
      + intros x y Hx Hy. destruct (Hbp x Hx) as [x' Hx'], (Hbp y Hy) as [y' Hy']. eapply Hdc; eauto.
      + eapply Z.le_lt_trans; [|exact Hcap]. apply Z.mul_le_mono_nonneg_l; auto. apply inj_le. exact Hlen.
      + intros p Hp. exists p. split; [|apply Heq]. rewrite inserted_app. apply in_or_app. auto.
    - intros a b w [[_ Hw]|[Ka _]] K; [exact Hw|congruence].
    - intros a b w [[Ka _]|(_ & _ & c & p & q & _ & _ & _ & Hq & Kq & _)] K; [congruence|eauto].
    - intro Z. rewrite Z in K2. inversion K2. subst ks. simpl in K1. apply Permutation_nil in K1.
      apply Hne. apply length_zero_iff_nil. rewrite <- (seq_length (length ss) 0). unfold ss. rewrite K1. reflexivity. }
  destruct HT as (cs & HT1 & HT2). exists r, cs, ks. split.
  - unfold genRoute. rewrite E. cbn [bind]. rewrite Eg. cbn [bind fst snd].
    unfold computeBestRoute. rewrite HN. replace (3 * n + 1 =? 0) with false by (symmetry; apply Nat.eqb_neq; unfold n; lia).
    replace (3 * n + 1 - 1) with (3 * n) by lia. rewrite Hsol. cbn [bind]. fold n in Er. rewrite Er. auto.
  - split; auto. split; [|auto]. rewrite HT1 in K2.
    assert (Z : concat (map (fun c : swath P W => [c]) cs) = cs) by (clear; induction cs; simpl; congruence). rewrite Z in K2. exact K2.
Qed.
Print Assumptions connections_shortest.

(** ** Example: the hypotheses hold for the two swaths of RoutePlanner_Props, and these are the connections. *)
Example connections_shortest_ex :
  let ss := concat pl_sbc in
  let stops := opt_list (Some 60) ++ end_points 0 ss in
  let base := base 0 pl_closest (Some 60) pl_rings ss in
  ss <> [] /\
  Forall (fun s => Nat.eqb 0 (sw_width s) = false /\ sw_path s <> [] /\
    Nat.eqb (first_pt 0 s) (first_pt 0 s) = true /\ Nat.eqb (last_pt 0 s) (last_pt 0 s) = true) ss /\
  pairwise_different Nat.eqb (60 :: flat_map (swath_nodes 0 pl_mid) ss) /\
  (forall p q, In p stops -> In q stops -> joined Nat.eqb 0 pl_closest pl_near (Some 60) pl_rings ss p q) /\
  (forall x y x' y', base x x' \/ base x' x -> base y y' \/ base y' y -> (0 <= pl_dist x y <= 100)%Z) /\
  (do r <- genRoute 0 (Nat.eqb 0) 0 (fun p => p) Nat.eqb pl_dist pl_mid 1000 pl_closest pl_near (fun l => l) edge_pairs
     (fun _ _ => Some pl_tour) (Some 60) pl_rings pl_sbc true;
   Ok (map (map (@sw_path nat nat)) (r_swaths r), r_conns r)) =
  Ok ([[[10; 20]]; [[30; 40]]], [[60; 40; 10]; [20; 30]; [40; 60]]).
Proof.
  cbv zeta. split; [discriminate|]. split; [repeat constructor; discriminate|]. split; [apply pl_different|].
  split; [apply genRoute_complete_ex|]. split; [apply genRoute_complete_ex|]. vm_compute. reflexivity.
Qed.
