(** Proofs about the costs of the coverage graph, second part: what the queries on the
    graph of the borders answer. *)
From Coq Require Import List Arith ZArith Lia Bool Permutation.
From Verif Require Import Outcome ListAux Swath_Model Graph_Model Graph_Spec Graph_Proofs2 Graph_Proofs4 Graph2D_Model Graph2D_Spec
  Graph2D_Props Route_Model RoutePlanner_Model RoutePlanner_Spec RoutePlanner_Spec2 RoutePlanner_Proofs2 RoutePlanner_Proofs4
  RoutePlanner_Proofs5 RoutePlanner_Proofs6.
Import ListNotations.

Section Answers.
  Context {P : Type}.
  Variable keq : P -> P -> bool.
  Variable dc : P -> P -> Z.
  Hypothesis Heq : equivalence keq.
  Let krefl : forall p, keq p p = true := proj1 Heq.
  Let ksym : forall p q, keq p q = keq q p := proj1 (proj2 Heq).
  Let ktrans : forall p q r, keq p q = true -> keq q r = true -> keq p r = true := proj2 (proj2 Heq).

  Lemma costs_of h (I : list P) D pts : forallb edit h = true ->
    (forall x, In x (inserted h) -> In x I) ->
    (forall x y, In x I -> In y I -> (0 <= dc x y <= D)%Z) ->
    (0 <= D)%Z -> (D * Z.of_nat (length I) < g2_INF)%Z ->
    (forall p, In p pts -> exists x, In x (inserted h) /\ keq x p = true) ->
    (forall p q, In p pts -> In q pts -> reach keq dc h p q) ->
    forall sg a b sg' c, inv keq dc h sg -> In a pts -> In b pts ->
    g2_shortestPathCost keq sg a b g2_INF = Ok (sg', c) -> inv keq dc h sg' /\ least_cost keq dc h a b c.
  Proof.
    intros Hed HI HD HD0 Hcap Hpts Hconn sg a b sg' c (h2 & Hq & Hinf & Hrun) Ha Hb EC.
    assert (HDe : forall x y e, g2_edge keq dc h x y = Some e -> (0 <= e <= D)%Z).
    { intros x y e He. destruct (edge_dist keq dc _ _ _ _ Hed He) as (x' & y' & Hx & Hy & ->). auto. }
    assert (HIpos : forall x y e, g2_edge keq dc h x y = Some e -> (1 <= Z.of_nat (length I))%Z).
    { intros x y e He. destruct (edge_dist keq dc _ _ _ _ Hed He) as (x' & y' & Hx & Hy & ->). apply HI in Hx. destruct I; [destruct Hx|]. simpl. lia. }
    destruct (edits_two_way h Hed) as [T1 Q1]. destruct (queries_two_way h2 Hq) as [T2 Q2].
    assert (Hins : forall z, In z pts -> exists x, In x (inserted (h ++ h2)) /\ keq x z = true).
    { intros z Hz. rewrite queries_inserted by auto. auto. }
    destruct (point_shortest_path P keq dc Heq h h2 sg g2_INF a b) as (g1 & g2 & path & c1 & A1 & A2 & A3 & A4 & A5 & A6); auto.
    { rewrite forallb_app, T1. auto. }
    { intros i Hi. unfold g2_infs in Hi. rewrite flat_map_app in Hi. apply in_app_or in Hi. destruct Hi as [Hi|Hi]; auto.
      change (In i (g2_infs h)) in Hi. rewrite edits_infs in Hi by auto. destruct Hi. }
    { unfold g2_INF. lia. }
    { intros x y e He. rewrite queries_edge in He by auto. pose proof (HDe _ _ _ He). pose proof (HIpos _ _ _ He). nia. }
    rewrite A1 in EC. injection EC as <- <-.
    destruct (simple_route keq dc Heq h a b (Hconn a b Ha Hb)) as (l & cl & u & v & R1 & R2 & R3 & R4 & R5 & R6).
    assert (Hcl : (cl < g2_INF)%Z).
    { destruct (Nat.eq_dec (length l) 1) as [E|E].
      - destruct l as [|x [|y l]]; simpl in E; try lia. inversion R1. unfold g2_INF. lia.
      - pose proof (route_cost keq dc h D l cl R1 HDe HD0).
        assert (length l <= length I); [|nia]. apply (known_length keq Heq); auto. intros x Hx.
        destruct (route_known keq dc h l cl R1 E x Hx) as (y & Hy & Ky). eauto. }
    assert (Hc : (c1 < g2_INF)%Z).
    { assert (c1 <= cl)%Z; [|lia]. apply (A4 l cl u v); auto. apply pt_route_queries; auto. }
    split.
    - exists (h2 ++ [G2Cost a b g2_INF]). split; [rewrite forallb_app, Hq; reflexivity|]. split.
      + intros i. unfold g2_infs. rewrite flat_map_app. intro Hx. apply in_app_or in Hx. destruct Hx as [Hx|Hx]; auto.
        simpl in Hx. destruct Hx as [<-|[]]. auto.
      + unfold g2_run in *. rewrite app_assoc, foldM_app, Hrun. cbn [foldM bind g2_run_op]. rewrite A1. reflexivity.
    - split.
      + destruct path as [|p0 path].
        * destruct (proj1 A5 eq_refl) as [K|K]; [|lia]. exists [a], a, a.
          assert (c1 = 0%Z) as ->.
          { assert (c1 <= 0)%Z; [|lia]. apply (A4 [a] 0%Z a a); auto; try reflexivity. constructor. }
          split; [constructor|]. auto.
        * destruct A6 as (B1 & p & q & B2 & B3 & B4 & B5); [discriminate|]. apply pt_route_queries in B1; auto.
          exists (p0 :: path), p, q. auto.
      + intros l' c' p q X1 X2 X3 X4 X5. destruct (Z_lt_ge_dec c' g2_INF) as [Y|Y]; [|lia].
        apply (A4 l' c' p q); auto. apply pt_route_queries; auto.
  Qed.

  Lemma least_cost_fun h a b c a' b' c' : least_cost keq dc h a b c -> least_cost keq dc h a' b' c' ->
    keq a a' = true -> keq b b' = true -> c = c'.
  Proof.
    intros [(l & p & q & R & P1 & P2 & P3 & P4) L] [(l' & p' & q' & R' & P1' & P2' & P3' & P4') L'] Ka Kb.
    apply Z.le_antisymm.
    - apply (L l' c' p' q'); auto; [apply (ktrans p' a' a)|apply (ktrans q' b' b)]; auto; now rewrite ksym.
    - apply (L' l c p q); auto; [apply (ktrans p a a')|apply (ktrans q b b')]; auto.
  Qed.
End Answers.
