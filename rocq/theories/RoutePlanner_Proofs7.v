(** Proofs about the costs of the coverage graph. *)
From Coq Require Import List Arith ZArith Lia Bool Permutation.
From Verif Require Import Outcome ListAux Swath_Model Graph_Model Graph_Spec Graph_Proofs2 Graph_Proofs3 Graph_Proofs4
  Graph2D_Model Graph2D_Spec Graph2D_Proofs Graph2D_Proofs2 Graph2D_Props Route_Model
  RoutePlanner_Model RoutePlanner_Spec RoutePlanner_Spec2 RoutePlanner_Proofs RoutePlanner_Proofs2.
Import ListNotations.

Section Costs.
  Context {P W : Type}.
  Variable p_default : P.
  Variable keq : P -> P -> bool.
  Variable mid : P -> P -> P.
  Variable far : P.
  Hypothesis Heq : equivalence keq.
  Notation swath := (swath P W).
  Notation start := (swath_startPoint p_default).
  Notation stop := (swath_endPoint p_default).
  Variable ss : list swath.
  Variable rse : option P.
  Variable redirect : bool.
  Let krefl : forall p, keq p p = true := proj1 Heq.
  Let ksym : forall p q, keq p q = keq q p := proj1 (proj2 Heq).
  Let ktrans : forall p q r, keq p q = true -> keq q r = true -> keq p r = true := proj2 (proj2 Heq).

  Variable Inv : graph2d P -> Prop.
  Variable travel : P -> P -> Z -> Prop.
  Definition stop_pt (p : P) : Prop := In p (opt_list rse ++ end_points p_default ss).
  Hypothesis Hq : forall sg a b sg' c, Inv sg -> stop_pt a -> stop_pt b ->
    g2_shortestPathCost keq sg a b g2_INF = Ok (sg', c) -> Inv sg' /\ travel a b c.
  Hypothesis Hfun : forall a b c a' b' c', travel a b c -> travel a' b' c' -> keq a a' = true -> keq b b' = true -> c = c'.

  Notation entry := (P * P * Z)%type.
  Definition run (L : list entry) (g : graph2d P) : graph2d P :=
    fold_left (fun g e => g2_addDirectedEdge keq g (fst (fst e)) (snd (fst e)) (snd e)) L g.
  Lemma run_app l1 l2 g : run (l1 ++ l2) g = run l2 (run l1 g).
  Proof. apply fold_left_app. Qed.

  Definition priced (e : entry) : Prop := travel (fst (fst e)) (snd (fst e)) (snd e).
  Definition free (ab : P * P) : entry := (ab, 0%Z).

  Lemma edge_short_costs g a b sg g' sg' : Inv sg -> stop_pt a -> stop_pt b -> g2_addEdge_short keq g a b sg = Ok (g', sg') ->
    exists L, map fst L = both a b /\ Forall priced L /\ g' = run L g /\ Inv sg'.
  Proof.
    intros I A B H. unfold g2_addEdge_short in H. bok H. bok H. destruct r as [sg1 c1], r0 as [sg2 c2]. cbn [fst snd] in *.
    destruct (Hq _ _ _ _ _ I A B E) as [I1 T1]. destruct (Hq _ _ _ _ _ I1 B A E0) as [I2 T2].
    injection H as <- <-. exists [((a, b), c1); ((b, a), c2)]. repeat split; auto.
    all: repeat constructor; auto.
  Qed.
  Lemma directed_short_costs g a b sg g' sg' : Inv sg -> stop_pt a -> stop_pt b -> g2_addDirectedEdge_short keq g a b sg = Ok (g', sg') ->
    exists L, map fst L = [(a, b)] /\ Forall priced L /\ g' = run L g /\ Inv sg'.
  Proof.
    intros I A B H. unfold g2_addDirectedEdge_short in H. bok H. destruct r as [sg1 c1]. cbn [fst snd] in *.
    destruct (Hq _ _ _ _ _ I A B E) as [I1 T1].
    injection H as <- <-. exists [((a, b), c1)]. repeat split; auto.
    all: repeat constructor; auto.
  Qed.

  Lemma stops_of s : In s ss -> stop_pt (start s) /\ stop_pt (stop s).
  Proof.
    intro H. rewrite start_first, stop_last. unfold stop_pt.
    split; apply in_or_app; right; apply in_flat_map; exists s; simpl; auto.
  Qed.

  Lemma swaths_costs (l : list swath) g : fold_left (cov_swath p_default keq mid redirect) l g =
    run (map free (flat_map (arcs_swath p_default mid redirect) l)) g.
  Proof.
    revert g. induction l as [|s l IH]; intro g; [reflexivity|]. cbn [fold_left flat_map]. rewrite map_app, run_app, IH. f_equal.
    unfold cov_swath, arcs_swath. destruct redirect; reflexivity.
  Qed.

  Ltac step1 E0 I A B := let L := fresh "L" in let M := fresh "M" in let F := fresh "F" in let R := fresh "R" in let J := fresh "J" in
    destruct (edge_short_costs _ _ _ _ _ _ I A B E0) as (L & M & F & R & J).

  Lemma pairs_costs l : (forall s1 s2, In (s1, s2) l -> In s1 ss /\ In s2 ss) -> forall gs gs', Inv (snd gs) ->
    foldM (cov_pair p_default keq redirect) l gs = Ok gs' ->
    exists L, map fst L = flat_map (arcs_pair p_default redirect) l /\ Forall priced L /\ fst gs' = run L (fst gs) /\ Inv (snd gs').
  Proof.
    induction l as [|[s1 s2] l IH]; intros Hl gs gs' I H; cbn [foldM] in H.
    - injection H as <-. exists []. repeat split; auto.
    - bok H. destruct (Hl s1 s2 (or_introl eq_refl)) as [H1 H2].
      destruct (stops_of s1 H1) as [K1 K2], (stops_of s2 H2) as [K3 K4].
      assert (X : exists L, map fst L = arcs_pair p_default redirect (s1, s2) /\ Forall priced L /\ fst r = run L (fst gs) /\ Inv (snd r)).
      { clear H IH. unfold cov_pair, arcs_pair in *. destruct redirect.
        - bok E. bok E. bok E. destruct r0 as [g1 x1], r1 as [g2 x2], r2 as [g3 x3], r as [g4 x4], gs as [g0 x0]. cbn [fst snd] in *.
          step1 E0 I K1 K3. step1 E1 J K2 K4. step1 E2 J0 K1 K4. step1 E J1 K2 K3.
          exists (L ++ L0 ++ L1 ++ L2). rewrite !map_app, !run_app. split; [congruence|]. split; [rewrite !Forall_app; auto|].
          split; [congruence|auto].
        - destruct r as [g4 x4], gs as [g0 x0]. cbn [fst snd] in *.
          exact (directed_short_costs _ _ _ _ _ _ I K2 K3 E). }
      destruct X as (L1 & M1 & F1 & R1 & J1).
      destruct (IH (fun a b i => Hl a b (or_intror i)) r gs' J1 H) as (L2 & M2 & F2 & R2 & J2).
      exists (L1 ++ L2). rewrite map_app, run_app. cbn [flat_map]. split; [congruence|]. split; [rewrite Forall_app; auto|].
      split; [congruence|auto].
  Qed.

  Definition depot_cost (e : entry) : Prop := match rse with Some _ => priced e | None => snd e = 0%Z end.

  Lemma depots_costs l : incl l ss -> forall gs gs', Inv (snd gs) ->
    foldM (cov_depot p_default keq far rse) l gs = Ok gs' ->
    exists L, map fst L = flat_map (arcs_depot p_default (depot_of far rse)) l /\ Forall depot_cost L /\ fst gs' = run L (fst gs) /\ Inv (snd gs').
  Proof.
    induction l as [|s l IH]; intros Hl gs gs' I H; cbn [foldM] in H.
    - injection H as <-. exists []. repeat split; auto.
    - bok H. destruct (stops_of s (Hl s (or_introl eq_refl))) as [K1 K2].
      assert (X : exists L, map fst L = arcs_depot p_default (depot_of far rse) s /\ Forall depot_cost L /\ fst r = run L (fst gs) /\ Inv (snd r)).
      { clear H IH. unfold depot_cost.
        assert (Hcase : (exists p, rse = Some p) \/ rse = None) by (generalize rse; intros [p|]; eauto).
        destruct Hcase as [[d Er]|Er].
        - assert (K3 : stop_pt d) by (unfold stop_pt; rewrite Er; left; reflexivity).
          rewrite Er in *. cbn [cov_depot depot_of] in *. bok E. destruct r0 as [g1 x1], r as [g4 x4], gs as [g0 x0]. cbn [fst snd] in *.
          step1 E0 I K1 K3. step1 E J K2 K3. exists (L ++ L0). rewrite map_app, run_app. unfold arcs_depot. split; [congruence|].
          split; [rewrite Forall_app; auto|]. split; [congruence|auto].
        - rewrite Er in *. cbn [cov_depot depot_of] in *. injection E as <-. cbn [fst snd].
          exists (map free (arcs_depot p_default far s)). split; [unfold arcs_depot, both; reflexivity|]. split; [|split; [reflexivity|auto]].
          apply Forall_forall. intros e Hin. apply in_map_iff in Hin. destruct Hin as (ab & <- & _). reflexivity. }
      destruct X as (L1 & M1 & F1 & R1 & J1).
      destruct (IH (fun a i => Hl a (or_intror i)) r gs' J1 H) as (L2 & M2 & F2 & R2 & J2).
      exists (L1 ++ L2). rewrite map_app, run_app. cbn [flat_map]. split; [congruence|]. split; [rewrite Forall_app; auto|].
      split; [congruence|auto].
  Qed.

  (** All entries of the coverage graph. *)
  Definition entries_ok (Ls Lp Ld : list entry) : Prop :=
    Ls = map free (flat_map (arcs_swath p_default mid redirect) ss) /\
    map fst Lp = flat_map (arcs_pair p_default redirect) (list_prod ss ss) /\ Forall priced Lp /\
    map fst Ld = flat_map (arcs_depot p_default (depot_of far rse)) ss /\ Forall depot_cost Ld.

  Lemma coverage_entries sbc sg g sg' : concat sbc = ss -> Inv sg ->
    createCoverageGraph p_default keq mid far rse sbc sg redirect = Ok (g, sg') ->
    exists Ls Lp Ld, entries_ok Ls Lp Ld /\ g = run (Ls ++ Lp ++ Ld) g2_empty /\ Inv sg'.
  Proof.
    intros Hss I H. unfold createCoverageGraph in H. rewrite Hss in H. bok H. rewrite swaths_costs in E.
    destruct (pairs_costs (list_prod ss ss)) with (2 := I) (3 := E) as (Lp & M1 & F1 & R1 & J1).
    { intros s1 s2 Hin. apply in_prod_iff in Hin. auto. }
    destruct (depots_costs ss (incl_refl _) _ _ J1 H) as (Ld & M2 & F2 & R2 & J2).
    exists (map free (flat_map (arcs_swath p_default mid redirect) ss)), Lp, Ld. split; [repeat split; auto|].
    split; [|exact J2]. rewrite !run_app. cbn [fst snd] in *. congruence.
  Qed.

  (** Points of zero-cost arcs and points one travels between are different. *)
  Hypothesis Hdiff : pairwise_different keq (depot_of far rse :: flat_map (swath_nodes p_default mid) ss).
  Definition zero_pt (z : P) : Prop := (exists s, In s ss /\ z = middle p_default mid s) \/ (rse = None /\ z = far).

  Lemma fop_split {A} (R : A -> A -> Prop) l1 x l2 y l3 : ForallOrdPairs R (l1 ++ x :: l2 ++ y :: l3) -> R x y.
  Proof.
    induction l1 as [|a l1 IH]; cbn [app]; intro H; inversion H as [|? ? H1 H2]; subst; auto.
    rewrite Forall_forall in H1. apply H1. apply in_or_app. right. left. reflexivity.
  Qed.

  Lemma node_distinct s a t : In s ss -> In t ss -> In a (ends p_default s) -> keq (middle p_default mid t) a = false.
  Proof.
    intros Hs Ht Ha. unfold pairwise_different in Hdiff. inversion Hdiff as [|? ? _ HD]; subst. clear Hdiff.
    destruct (in_split _ _ Hs) as (l1 & l2 & Ess). rewrite Ess in Ht, HD.
    apply in_app_or in Ht. destruct Ht as [Ht|[<-|Ht]].
    - destruct (in_split _ _ Ht) as (m1 & m2 & ->). rewrite <- app_assoc in HD. cbn [app] in HD. rewrite !flat_map_app in HD. cbn [flat_map] in HD.
      rewrite flat_map_app in HD. cbn [flat_map] in HD.
      destruct Ha as [<-|[<-|[]]].
      + apply (fop_split (fun p q : P => keq p q = false) (flat_map (swath_nodes p_default mid) m1 ++ [first_pt p_default t; last_pt p_default t]) (middle p_default mid t)
          (flat_map (swath_nodes p_default mid) m2) _ ([last_pt p_default s; middle p_default mid s] ++ flat_map (swath_nodes p_default mid) l2)).
        rewrite <- !app_assoc. exact HD.
      + apply (fop_split (fun p q : P => keq p q = false) (flat_map (swath_nodes p_default mid) m1 ++ [first_pt p_default t; last_pt p_default t]) (middle p_default mid t)
          (flat_map (swath_nodes p_default mid) m2 ++ [first_pt p_default s]) _ ([middle p_default mid s] ++ flat_map (swath_nodes p_default mid) l2)).
        rewrite <- !app_assoc. exact HD.
    - rewrite flat_map_app in HD. cbn [flat_map] in HD. rewrite ksym. destruct Ha as [<-|[<-|[]]].
      + apply (fop_split (fun p q : P => keq p q = false) (flat_map (swath_nodes p_default mid) l1) _ [last_pt p_default s] _ (flat_map (swath_nodes p_default mid) l2)). exact HD.
      + apply (fop_split (fun p q : P => keq p q = false) (flat_map (swath_nodes p_default mid) l1 ++ [first_pt p_default s]) _ [] _ (flat_map (swath_nodes p_default mid) l2)).
        rewrite <- !app_assoc. exact HD.
    - destruct (in_split _ _ Ht) as (m1 & m2 & ->). rewrite !flat_map_app in HD. cbn [flat_map] in HD. rewrite flat_map_app in HD. cbn [flat_map] in HD.
      rewrite ksym. destruct Ha as [<-|[<-|[]]].
      + apply (fop_split (fun p q : P => keq p q = false) (flat_map (swath_nodes p_default mid) l1) _ ([last_pt p_default s; middle p_default mid s] ++ flat_map (swath_nodes p_default mid) m1 ++ [first_pt p_default t; last_pt p_default t]) _ (flat_map (swath_nodes p_default mid) m2)).
        rewrite <- !app_assoc. exact HD.
      + apply (fop_split (fun p q : P => keq p q = false) (flat_map (swath_nodes p_default mid) l1 ++ [first_pt p_default s]) _ ([middle p_default mid s] ++ flat_map (swath_nodes p_default mid) m1 ++ [first_pt p_default t; last_pt p_default t]) _ (flat_map (swath_nodes p_default mid) m2)).
        rewrite <- !app_assoc. exact HD.
  Qed.

  Lemma zero_not_stop z p : zero_pt z -> stop_pt p -> keq z p = false.
  Proof.
    assert (D : forall x, In x (flat_map (swath_nodes p_default mid) ss) -> keq (depot_of far rse) x = false).
    { unfold pairwise_different in Hdiff. inversion Hdiff as [|? ? H _]; subst. rewrite Forall_forall in H. exact H. }
    unfold stop_pt. intros [(t & Ht & ->)|[Er ->]] Hp.
    - apply in_app_or in Hp. destruct Hp as [Hp|Hp].
      + assert (Hcase : (exists d, rse = Some d) \/ rse = None) by (generalize rse; intros [d|]; eauto).
        destruct Hcase as [[d Er]|Er]; rewrite Er in Hp; [|destruct Hp]. destruct Hp as [<-|[]]. rewrite ksym.
        rewrite Er in D. apply D. apply in_flat_map. exists t. split; auto. unfold swath_nodes, middle. simpl. auto.
      + apply in_flat_map in Hp. destruct Hp as (s & Hs & Ha). now apply (node_distinct s).
    - rewrite Er in *. cbn [opt_list app depot_of] in *. apply in_flat_map in Hp. destruct Hp as (s & Hs & Ha).
      apply D. apply in_flat_map. exists s. split; auto. unfold swath_nodes. simpl in *. tauto.
  Qed.

  (** Each entry is either free, at a zero point, or priced, between stops. *)
  Definition is_free (e : entry) : Prop := snd e = 0%Z /\ (zero_pt (fst (fst e)) \/ zero_pt (snd (fst e))).
  Definition is_priced (e : entry) : Prop := priced e /\ stop_pt (fst (fst e)) /\ stop_pt (snd (fst e)).

  Lemma arcs_swath_in a b : In (a, b) (flat_map (arcs_swath p_default mid redirect) ss) -> exists s, In s ss /\
    let m := middle p_default mid s in
    (a = start s /\ b = m \/ a = m /\ b = stop s \/ redirect = true /\ (a = m /\ b = start s \/ a = stop s /\ b = m)).
  Proof.
    intro H. apply in_flat_map in H. destruct H as (s & Hs & H). exists s. split; auto. unfold arcs_swath, both in H. unfold middle.
    rewrite ?start_first, ?stop_last in *. destruct redirect; simpl in H; intuition congruence.
  Qed.
  Lemma arcs_pair_in a b : In (a, b) (flat_map (arcs_pair p_default redirect) (list_prod ss ss)) -> exists s t, In s ss /\ In t ss /\
    (a = stop s /\ b = start t \/ redirect = true /\ In a [start s; stop s] /\ In b [start t; stop t]).
  Proof.
    intro H. apply in_flat_map in H. destruct H as ([s t] & Hs & H). apply in_prod_iff in Hs. destruct Hs as [Hs Ht].
    unfold arcs_pair, both in H. destruct redirect; simpl in H.
    - assert (X : (a = start s \/ a = stop s) /\ (b = start t \/ b = stop t) \/ (a = start t \/ a = stop t) /\ (b = start s \/ b = stop s)).
      { intuition (match goal with E : (_, _) = (_, _) |- _ => injection E as <- <- end; auto). }
      destruct X as [[X Y]|[X Y]]; [exists s, t|exists t, s]; (split; [auto|split; [auto|]]); right; (split; [auto|]); simpl; intuition.
    - exists s, t. split; auto. split; auto. left. destruct H as [H|[]]. injection H as <- <-. auto.
  Qed.
  Lemma arcs_depot_in a b d : In (a, b) (flat_map (arcs_depot p_default d) ss) -> exists s x, In s ss /\ In x [start s; stop s] /\
    (a = x /\ b = d \/ a = d /\ b = x).
  Proof.
    intro H. apply in_flat_map in H. destruct H as (s & Hs & H). unfold arcs_depot, both in H. simpl in H. exists s.
    destruct H as [H|[H|[H|[H|[]]]]]; injection H as <- <-; [exists (start s)|exists (start s)|exists (stop s)|exists (stop s)]; simpl; tauto.
  Qed.

  Lemma in_fst (L : list entry) a b c : In (a, b, c) L -> In (a, b) (map fst L).
  Proof. intro H. apply in_map_iff. exists (a, b, c). auto. Qed.

  Lemma entry_kind Ls Lp Ld e : entries_ok Ls Lp Ld -> In e (Ls ++ Lp ++ Ld) -> is_free e \/ is_priced e.
  Proof.
    intros (E1 & M1 & F1 & M2 & F2) H. destruct e as [[a b] c]. rewrite Forall_forall in F1, F2.
    apply in_app_or in H. destruct H as [H|H]; [|apply in_app_or in H; destruct H as [H|H]].
    - subst Ls. apply in_map_iff in H. destruct H as ([a' b'] & E & H). injection E as <- <- <-. left. split; [reflexivity|]. cbn [fst snd].
      apply arcs_swath_in in H. destruct H as (s & Hs & H). cbv zeta in H.
      assert (Z0 : zero_pt (middle p_default mid s)) by (left; exists s; auto).
      intuition (subst; auto).
    - right. split; [apply F1; auto|]. apply in_fst in H. rewrite M1 in H. apply arcs_pair_in in H. destruct H as (s & t & Hs & Ht & H).
      destruct (stops_of s Hs), (stops_of t Ht). cbn [fst snd]. simpl in H. intuition (subst; auto).
    - pose proof (F2 _ H) as Hc. apply in_fst in H. rewrite M2 in H. apply arcs_depot_in in H. destruct H as (s & x & Hs & Hx & H).
      unfold depot_cost in Hc. destruct (stops_of s Hs) as [K1 K2].
      assert (Kx : stop_pt x) by (destruct Hx as [<-|[<-|[]]]; auto).
      assert (Hcase : (exists d, rse = Some d) \/ rse = None) by (generalize rse; intros [d|]; eauto).
      destruct Hcase as [[d Er]|Er]; rewrite Er in Hc, H; cbn [depot_of] in H.
      + right. assert (K3 : stop_pt d) by (unfold stop_pt; rewrite Er; left; reflexivity).
        split; auto. cbn [fst snd]. intuition (subst; auto).
      + left. split; auto. assert (Z0 : zero_pt far) by (right; auto). cbn [fst snd]. intuition (subst; auto).
  Qed.

  Lemma entries_agree Ls Lp Ld a b c a' b' c' : entries_ok Ls Lp Ld ->
    In (a, b, c) (Ls ++ Lp ++ Ld) -> In (a', b', c') (Ls ++ Lp ++ Ld) -> keq a a' = true -> keq b b' = true -> c = c'.
  Proof.
    intros OK H1 H2 Ka Kb. pose proof (entry_kind _ _ _ _ OK H1) as X. pose proof (entry_kind _ _ _ _ OK H2) as Y.
    unfold is_free, is_priced, priced in *. cbn [fst snd] in *.
    destruct X as [[X1 X2]|[X1 [X2 X3]]], Y as [[Y1 Y2]|[Y1 [Y2 Y3]]].
    - congruence.
    - exfalso. destruct X2 as [X2|X2]; [rewrite (zero_not_stop _ _ X2 Y2) in Ka|rewrite (zero_not_stop _ _ X2 Y3) in Kb]; discriminate.
    - exfalso. rewrite ksym in Ka, Kb. destruct Y2 as [Y2|Y2]; [rewrite (zero_not_stop _ _ Y2 X2) in Ka|rewrite (zero_not_stop _ _ Y2 X3) in Kb]; discriminate.
    - eapply Hfun; eauto.
  Qed.

  (** The edges of a graph made of entries that agree. *)
  Definition op_of (e : entry) : g2op P := G2AddDirected (fst (fst e)) (snd (fst e)) (snd e).
  Lemma run_history dc L : forall g, foldM (g2_run_op keq dc) (map op_of L) g = Ok (run L g).
  Proof. induction L as [|e L IH]; intro g; [reflexivity|]. cbn [map foldM]. cbn [op_of g2_run_op bind]. apply IH. Qed.

  Lemma edge_entries dc L p q c :
    (forall a b c a' b' c', In (a, b, c) L -> In (a', b', c') L -> keq a a' = true -> keq b b' = true -> c = c') ->
    (g2_edge keq dc (map op_of L) p q = Some c <-> exists a b, In (a, b, c) L /\ keq a p = true /\ keq b q = true).
  Proof.
    intro HA. unfold g2_edge.
    induction L as [|[[a b] c0] L IH] using rev_ind; [split; [discriminate|intros (a & b & [] & _)]|].
    rewrite map_app, fold_left_app. cbn [map fold_left op_of fst snd g2op_cost].
    destruct (keq a p && keq b q) eqn:K.
    - apply andb_true_iff in K. destruct K as [Ka Kb]. split.
      + intro E. injection E as <-. exists a, b. split; [apply in_or_app; right; left; reflexivity|auto].
      + intros (a' & b' & Hin & Ka' & Kb'). f_equal. apply (HA a b c0 a' b' c).
        * apply in_or_app; right; left; reflexivity.
        * exact Hin.
        * apply (ktrans a p a'); auto. now rewrite ksym.
        * apply (ktrans b q b'); auto. now rewrite ksym.
    - rewrite IH.
      + split; intros (a' & b' & Hin & Ka' & Kb').
        * exists a', b'. split; [apply in_or_app; auto|auto].
        * apply in_app_or in Hin. destruct Hin as [Hin|[E|[]]]; [exists a', b'; auto|].
          injection E as <- <- <-. rewrite Ka', Kb' in K. discriminate.
      + intros x y z x' y' z' X Y Kx Ky. apply (HA x y z x' y' z'); auto; apply in_or_app; auto.
  Qed.

  (** Entries are the arcs of the specification. *)
  Lemma in_entry (L : list entry) ab : In ab (map fst L) -> exists c, In (fst ab, snd ab, c) L.
  Proof. intro H. apply in_map_iff in H. destruct H as ([[a b] c] & <- & H). exists c. exact H. Qed.

  Notation arc := (cov_arc keq p_default mid far rse redirect ss travel).

  Lemma entry_arc Ls Lp Ld a b c : entries_ok Ls Lp Ld -> In (a, b, c) (Ls ++ Lp ++ Ld) -> arc a b c.
  Proof.
    intros (E1 & M1 & F1 & M2 & F2) H. rewrite Forall_forall in F1, F2.
    apply in_app_or in H. destruct H as [H|H]; [|apply in_app_or in H; destruct H as [H|H]].
    - subst Ls. apply in_map_iff in H. destruct H as ([a' b'] & E & H). injection E as <- <- <-.
      apply arcs_swath_in in H. destruct H as (s & Hs & H). cbv zeta in H. rewrite start_first, stop_last in H.
      destruct H as [[-> ->]|[[-> ->]|[R [[-> ->]|[-> ->]]]]]; [apply ca_in|apply ca_out|apply ca_out_back|apply ca_in_back]; auto.
    - pose proof (F1 _ H) as T. apply in_fst in H. rewrite M1 in H. apply arcs_pair_in in H. destruct H as (s & t & Hs & Ht & H).
      rewrite !start_first, !stop_last in H. unfold priced in T. cbn [fst snd] in T. destruct H as [[-> ->]|[R [Ha Hb]]].
      + apply ca_next; auto.
      + apply (ca_any _ _ _ _ _ _ _ _ s t); auto.
    - pose proof (F2 _ H) as Hc. apply in_fst in H. rewrite M2 in H. apply arcs_depot_in in H. destruct H as (s & x & Hs & Hx & H).
      rewrite start_first, stop_last in Hx. unfold depot_cost, priced in Hc. cbn [fst snd] in Hc.
      assert (Hcase : (exists d, rse = Some d) \/ rse = None) by (generalize rse; intros [d|]; eauto).
      destruct Hcase as [[d Er]|Er]; rewrite Er in Hc, H; cbn [depot_of] in H.
      + destruct H as [[-> ->]|[-> ->]]; [apply (ca_return _ _ _ _ _ _ _ _ d s x)|apply (ca_leave _ _ _ _ _ _ _ _ d s x)]; auto.
      + subst c. destruct H as [[-> ->]|[-> ->]]; [apply (ca_return_far _ _ _ _ _ _ _ _ s)|apply (ca_leave_far _ _ _ _ _ _ _ _ s)]; auto.
  Qed.

  Lemma arc_entry Ls Lp Ld p q c : entries_ok Ls Lp Ld -> arc p q c ->
    exists a b, In (a, b, c) (Ls ++ Lp ++ Ld) /\ keq a p = true /\ keq b q = true.
  Proof.
    intros (E1 & M1 & F1 & M2 & F2) H. rewrite Forall_forall in F1, F2.
    assert (HS : forall a b, In (a, b) (flat_map (arcs_swath p_default mid redirect) ss) ->
      exists a' b', In (a', b', 0%Z) (Ls ++ Lp ++ Ld) /\ keq a' a = true /\ keq b' b = true).
    { intros a b Hin. exists a, b. split; auto. apply in_or_app. left. rewrite E1. apply in_map_iff. exists (a, b). auto. }
    assert (HP : forall a b c, In (a, b) (flat_map (arcs_pair p_default redirect) (list_prod ss ss)) -> travel a b c ->
      exists a' b', In (a', b', c) (Ls ++ Lp ++ Ld) /\ keq a' a = true /\ keq b' b = true).
    { intros a b c0 Hin T. rewrite <- M1 in Hin. destruct (in_entry _ _ Hin) as [c1 Hc]. cbn [fst snd] in Hc.
      assert (c1 = c0) as ->. { apply (Hfun a b c1 a b c0); auto. apply (F1 _ Hc). }
      exists a, b. split; auto. apply in_or_app. right. apply in_or_app. auto. }
    assert (HD : forall a b c, In (a, b) (flat_map (arcs_depot p_default (depot_of far rse)) ss) -> (rse <> None -> travel a b c) -> (rse = None -> c = 0%Z) ->
      exists a' b', In (a', b', c) (Ls ++ Lp ++ Ld) /\ keq a' a = true /\ keq b' b = true).
    { intros a b c0 Hin T Tz. rewrite <- M2 in Hin. destruct (in_entry _ _ Hin) as [c1 Hc]. cbn [fst snd] in Hc.
      pose proof (F2 _ Hc) as D. unfold depot_cost, priced in D. cbn [fst snd] in D.
      assert (c1 = c0) as ->.
      { assert (Hcase : (exists d, rse = Some d) \/ rse = None) by (generalize rse; intros [d|]; eauto).
        destruct Hcase as [[d Er]|Er]; rewrite Er in D.
        - apply (Hfun a b c1 a b c0); auto. apply T. rewrite Er. discriminate.
        - rewrite D. symmetry. auto. }
      exists a, b. split; auto. apply in_or_app. right. apply in_or_app. auto. }
    induction H as [s Hs|s Hs|s R Hs|s R Hs|s t c Hs Ht T|s t a b c R Hs Ht Ha Hb T|d s a c Er Hs Ha T|d s a c Er Hs Ha T|s a Er Hs Ha|s a Er Hs Ha|p q p' q' c H IH Kp Kq].
    - apply HS. apply in_flat_map. exists s. split; auto. unfold arcs_swath, both, middle. rewrite ?start_first, ?stop_last. destruct redirect; simpl; auto.
    - apply HS. apply in_flat_map. exists s. split; auto. unfold arcs_swath, both, middle. rewrite ?start_first, ?stop_last. destruct redirect; simpl; auto.
    - apply HS. apply in_flat_map. exists s. split; auto. unfold arcs_swath, both, middle. rewrite ?start_first, ?stop_last, R; simpl; auto.
    - apply HS. apply in_flat_map. exists s. split; auto. unfold arcs_swath, both, middle. rewrite ?start_first, ?stop_last, R; simpl; auto.
    - apply HP; auto. apply in_flat_map. exists (s, t). split; [apply in_prod_iff; auto|]. unfold arcs_pair, both. rewrite ?start_first, ?stop_last.
      destruct redirect; simpl; auto 10.
    - apply HP; auto. apply in_flat_map. exists (s, t). split; [apply in_prod_iff; auto|]. unfold arcs_pair, both. rewrite ?start_first, ?stop_last, R.
      simpl in Ha, Hb. destruct Ha as [<-|[<-|[]]], Hb as [<-|[<-|[]]]; simpl; auto 10.
    - apply HD; [|auto|congruence]. apply in_flat_map. exists s. split; auto. unfold arcs_depot, both. rewrite ?start_first, ?stop_last, Er. cbn [depot_of].
      destruct Ha as [<-|[<-|[]]]; simpl; auto.
    - apply HD; [|auto|congruence]. apply in_flat_map. exists s. split; auto. unfold arcs_depot, both. rewrite ?start_first, ?stop_last, Er. cbn [depot_of].
      destruct Ha as [<-|[<-|[]]]; simpl; auto.
    - apply HD; [|congruence|auto]. apply in_flat_map. exists s. split; auto. unfold arcs_depot, both. rewrite ?start_first, ?stop_last, Er. cbn [depot_of].
      destruct Ha as [<-|[<-|[]]]; simpl; auto.
    - apply HD; [|congruence|auto]. apply in_flat_map. exists s. split; auto. unfold arcs_depot, both. rewrite ?start_first, ?stop_last, Er. cbn [depot_of].
      destruct Ha as [<-|[<-|[]]]; simpl; auto.
    - destruct IH as (a & b & Hin & Ka & Kb). exists a, b. split; auto. split; [apply (ktrans a p p')|apply (ktrans b q q')]; auto.
  Qed.

  Lemma coverage_arcs sbc sg g sg' : concat sbc = ss -> Inv sg ->
    createCoverageGraph p_default keq mid far rse sbc sg redirect = Ok (g, sg') ->
    forall i j c, edge_in (g_edges (g2_graph g)) i j c <->
      exists p q, g2_indexToNode g i = Ok p /\ g2_indexToNode g j = Ok q /\ arc p q c.
  Proof.
    intros Hss I H i j c. destruct (coverage_entries sbc sg g sg' Hss I H) as (Ls & Lp & Ld & OK & Eg & _).
    set (L := Ls ++ Lp ++ Ld) in *. set (dc := fun _ _ : P => 0%Z).
    assert (R : g2_run keq dc (map op_of L) = Ok g) by (unfold g2_run; rewrite run_history; congruence).
    destruct (linked_run keq dc Heq _ _ R) as (pts & h' & HL). pose proof HL as (HR & _ & H3 & _).
    assert (HA : forall p q c, g2_edge keq dc (map op_of L) p q = Some c <-> arc p q c).
    { intros p q c0. rewrite edge_entries; [|intros; eapply entries_agree; eauto]. split.
      - intros (a & b & Hin & Ka & Kb). eapply ca_same; [eapply entry_arc; eauto|auto|auto].
      - apply arc_entry; auto. }
    rewrite (l_look keq dc _ pts g h' HL). rewrite !(indexToNode_rep keq pts g _ HR). split.
    - intro E. apply (l_edge_pts keq dc _ pts g h' HL) in E. destruct E as (p & q & Hi & Hj & E). rewrite Hi, Hj.
      exists p, q. repeat split; auto. now apply HA.
    - intros (p & q & Hi & Hj & A). destruct (nth_error pts i) as [p0|] eqn:Ei; [|discriminate]. destruct (nth_error pts j) as [q0|] eqn:Ej; [|discriminate].
      injection Hi as ->. injection Hj as ->. rewrite (H3 i j p q Ei Ej). now apply HA.
  Qed.
End Costs.
