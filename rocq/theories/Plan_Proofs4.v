(** Routes made by the route planner can be planned by the path planner. *)
From Coq Require Import List Arith ZArith Lia Bool Reals Lra Permutation.
From Verif Require Import Outcome ListAux Num Swath_Model Graph_Model Graph2D_Model Route_Model RoutePlanner_Model RoutePlanner_Spec
  Graph_Proofs4 Point_Model Angle_Spec Transform_Model PathPlanning_Spec Plan_Model Plan_Spec.
Import ListNotations.

Section Shape.
  Context {P W : Type}.
  (** As many connections as groups, plus [k]; no empty group; the first connection is empty. *)
  Let inv (k : nat) (r : route P W) : Prop :=
    length (r_conns r) = (k + length (r_swaths r))%nat /\ (forall g, In g (r_swaths r) -> g <> []) /\ r_swaths r <> [] /\
    hd_error (r_conns r) = Some [].

  Lemma upd_back_last {A} (f : A -> A) l a : upd_back f (l ++ [a]) = Ok (l ++ [f a]).
  Proof. unfold upd_back. rewrite rev_app_distr. cbn [rev app]. now rewrite rev_involutive. Qed.

  Lemma inv_conn k r : k = 0%nat \/ k = 1%nat -> inv k r -> inv 1 (r_addConnection r).
  Proof.
    intros Hk (H1 & H2 & H3 & H4). unfold r_addConnection, r_sizeConnections, r_sizeVectorSwaths.
    destruct (Nat.leb_spec (length (r_conns r)) (length (r_swaths r))).
    - assert (k = 0)%nat by lia. subst k. unfold inv. cbn [r_conns r_swaths]. rewrite app_length. cbn [length].
      split; [lia|]. split; [exact H2|]. split; [exact H3|]. destruct (r_conns r); [discriminate|exact H4].
    - assert (k = 1)%nat by lia. subst k. repeat split; auto.
  Qed.
  Lemma inv_point k r p r' : k = 0%nat \/ k = 1%nat -> inv k r -> r_addConnection_point r p = Ok r' -> inv 1 r'.
  Proof.
    intros Hk H E. unfold r_addConnection_point in E. apply (inv_conn k r Hk) in H. destruct H as (H1 & H2 & H3 & H4).
    set (r1 := r_addConnection r) in *. destruct (r_conns r1) as [|c0 cs] eqn:EC; [discriminate|].
    assert (NE : cs <> []).
    { intros ->. destruct (r_swaths r1); [congruence|]. cbn in H1. lia. }
    destruct (exists_last NE) as (pre & b & ->). change (c0 :: pre ++ [b]) with ((c0 :: pre) ++ [b]) in *.
    rewrite upd_back_last in E. cbn [bind] in E. injection E as <-. unfold inv. cbn [r_conns r_swaths].
    cbn [app length] in H1 |- *. rewrite app_length in H1 |- *. cbn [length] in H1 |- *. split; [lia|]. split; [exact H2|]. split; [exact H3|]. exact H4.
  Qed.
  Lemma inv_points r mp r' : inv 0 r -> r_addConnection_points r mp = Ok r' -> inv 1 r'.
  Proof.
    intros H E. unfold r_addConnection_points in E. destruct mp as [|p mp].
    - cbn [length Nat.ltb Nat.leb foldM] in E. injection E as <-. apply (inv_conn 0); auto.
    - cbn [length Nat.ltb Nat.leb foldM] in E. bok E. apply (inv_point 0) in E0; auto.
      revert E. apply (foldM_inv _ (inv 1)); auto. intros s a s' Hs Es. eapply (inv_point 1); eauto.
  Qed.
  Lemma inv_swath k r s r' : k = 0%nat \/ k = 1%nat -> inv k r -> r_addSwath r s = Ok r' -> inv 0 r'.
  Proof.
    intros Hk (H1 & H2 & H3 & H4) E. unfold r_addSwath, r_sizeConnections, r_sizeVectorSwaths in E.
    assert (NC : (length (r_conns r) =? 0)%nat = false) by (apply Nat.eqb_neq; destruct (r_swaths r); [congruence|cbn in H1; lia]).
    assert (NS : (length (r_swaths r) =? 0)%nat = false) by (apply Nat.eqb_neq; destruct (r_swaths r); [congruence|discriminate]).
    rewrite NC, NS, orb_false_r in E. destruct (Nat.ltb_spec (length (r_swaths r)) (length (r_conns r))).
    - assert (k = 1)%nat by lia. subst k. rewrite upd_back_last in E. cbn [bind app] in E. injection E as <-.
      unfold inv. cbn [r_conns r_swaths]. rewrite app_length. cbn [length]. split; [lia|]. split; [|split; [|exact H4]].
      + intros g Hg. apply in_app_or in Hg. destruct Hg as [Hg|[<-|[]]]; [auto|discriminate].
      + destruct (r_swaths r); discriminate.
    - assert (k = 0)%nat by lia. subst k. destruct (exists_last H3) as (pre & b & EV). rewrite EV, upd_back_last in E. cbn [bind] in E.
      injection E as <-. unfold inv. cbn [r_conns r_swaths]. rewrite EV in H1, H2. rewrite app_length in H1 |- *. cbn [length] in H1 |- *.
      split; [lia|]. split; [|split; [|exact H4]].
      + intros g Hg. apply in_app_or in Hg. destruct Hg as [Hg|[<-|[]]]; [apply H2; apply in_or_app; auto|destruct b; discriminate].
      + destruct pre; discriminate.
  Qed.

  Variable p_default : P.
  Variable w_nonpos : W -> bool.
  Variable w_zero : W.
  Variable wkt : P -> P.
  Variable keq : P -> P -> bool.

  Lemma transform_shape ids sbc g sg r sg' :
    transformSolutionToRoute p_default w_nonpos w_zero wkt keq None ids sbc g sg = Ok (r, sg') -> r = mkRoute [] [] \/ inv 0 r.
  Proof.
    intro E. unfold transformSolutionToRoute in E. bok E. injection E as ->. cbn [fst] in *.
    change r with (fst (r, sg')). revert E0. apply (foldM_inv _ (fun rs => fst rs = mkRoute [] [] \/ inv 0 (fst rs))); [|left; reflexivity].
    intros s i s' Hs E1. unfold transform_step in E1. do 5 bok E1. destruct r4 as [c|]; [|injection E1 as <-; auto].
    unfold add_to_route in E1. cbn [bind] in E1. unfold r_addSwath_graph in E1. right. destruct Hs as [Hs|Hs].
    - rewrite Hs in E1. cbn in E1. injection E1 as <-. cbn [fst]. unfold inv. cbn. repeat split; try discriminate. intros g0 [<-|[]]; discriminate.
    - assert (NE : r_isEmpty (fst s) = false).
      { destruct Hs as (H1 & H2 & H3 & H4). unfold r_isEmpty. destruct (r_conns (fst s)) as [|]; [discriminate|]. destruct (r_swaths (fst s)); [congruence|].
        cbn. rewrite ?andb_false_r; auto. }
      rewrite NE in E1. do 4 bok E1. injection E1 as <-. cbn [fst]. eapply (inv_swath 1); [auto| |eassumption]. eapply inv_points; eassumption.
  Qed.

  Lemma inv_legs r : inv 0 r -> (length (r_swaths r) <= length (r_conns r))%nat /\
    (forall i mp, (i < length (r_swaths r))%nat -> nth_error (r_conns r) i = Some mp ->
      leg_ok (match i with O => [] | S k => nth k (r_swaths r) [] end) mp (nth i (r_swaths r) [])) /\
    ~ (length (r_swaths r) < length (r_conns r))%nat.
  Proof.
    intros (H1 & H2 & H3 & H4). split; [lia|]. split; [|lia]. intros i mp Hi Hm.
    assert (HN : forall j, (j < length (r_swaths r))%nat -> nth j (r_swaths r) [] <> []) by (intros j Hj; apply H2, nth_In; auto).
    destruct i as [|i].
    - intros _. destruct (r_conns r); [discriminate|]. cbn in H4, Hm |- *. injection H4 as ->. injection Hm as <-. discriminate.
    - intros [Z|Z]; exfalso; revert Z; apply HN; lia.
  Qed.
End Shape.

Lemma route_plannable wkt keq near node_order edge_order solver rings sbc r :
  plan_genRoute wkt keq near node_order edge_order solver rings sbc = Ok r ->
  (forall s, In s (concat (r_swaths r)) -> (2 <= length (sw_path s))%nat) -> PathPlanning_Spec.plannable r.
Proof.
  intros E H. unfold plan_genRoute, genRoute in E. do 4 bok E. injection E as <-. destruct r3 as [r sg']. cbn [fst] in *.
  assert (HS : forall g s, In g (r_swaths r) -> In s g -> (2 <= length (sw_path s))%nat) by (intros g s Hg Hs; apply H, in_concat; eauto).
  destruct (transform_shape _ _ _ _ _ _ _ _ _ _ _ E3) as [->|I].
  - constructor; cbn; [lia|tauto|intros; lia|lia].
  - destruct (inv_legs r I) as (A & B & C). constructor; auto; tauto.
Qed.
