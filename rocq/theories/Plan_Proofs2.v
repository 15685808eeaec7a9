(** Proofs about planning in one call: the route, and the copies of a field. *)
From Coq Require Import List Arith ZArith Lia Bool Reals Lra Psatz Permutation.
From Verif Require Import Outcome ListAux Num Swath_Model Graph_Model Graph_Spec Graph_Proofs4 Graph2D_Model Graph2D_Spec Route_Model RoutePlanner_Model
  RoutePlanner_Spec RoutePlanner_Props Point_Model Angle_Model Angle_Spec SwathGen_Model SwathGen_Spec SwathGen_Proofs2 Robot_Model
  Transform_Model Plan_Model Plan_Spec.
Import ListNotations.
Open Scope R_scope.

Lemma trunc_mono x y : 0 <= x <= y -> (0 <= Rtrunc x <= Rtrunc y)%Z.
Proof.
  intro H. destruct (trunc_spec x) as (A & B & C); [lra|]. destruct (trunc_spec y) as (A' & B' & C'); [lra|].
  split; auto. assert (Rtrunc x < Rtrunc y + 1)%Z by (apply lt_IZR; rewrite plus_IZR; lra). lia.
Qed.

Lemma swaths_of_width (wkt : rpoint -> rpoint) w pieces s : swaths_of wkt w pieces s -> forall x, In x s -> sw_width x = w /\
  exists i piece, nth_error pieces i = Some piece /\ nth_error s i = Some x /\ sw_path x = map wkt piece.
Proof.
  intros [L H] x Hx. apply In_nth_error in Hx. destruct Hx as (i & Hi).
  assert (Hp : (i < length pieces)%nat) by (rewrite <- L; apply nth_error_Some; congruence).
  apply nth_error_Some in Hp. destruct (nth_error pieces i) as [piece|] eqn:E; [|congruence].
  pose proof (H i piece E) as E'. rewrite Hi in E'. injection E' as ->. simpl. split; auto. exists i, piece. auto.
Qed.

Section Route.
  Variable wkt : rpoint -> rpoint.
  Variable keq : rpoint -> rpoint -> bool.
  Variable near : rpoint -> rpoint -> rpoint -> bool.
  Variable node_order : list rpoint -> list rpoint.
  Variable edge_order : edges_t -> list (nat * nat).
  Variable solver : graph2d rpoint -> nat -> option (list nat).
  Hypothesis Heq : equivalence keq.
  Hypothesis Hnear : forall a b n a' b' n', keq a a' = true -> keq b b' = true -> keq n n' = true -> near a b n = near a' b' n'.
  Hypothesis Hswap : forall a b n, near a b n = near b a n.
  Hypothesis Hno : forall l, Permutation (node_order l) l.
  Hypothesis Heo : forall e, Permutation (edge_order e) (edge_pairs e).

  Lemma route_ok rings (sbc : list (list rswath)) :
    (forall s, In s (concat sbc) -> 0 < sw_width s) ->
    routable wkt keq near (fun p => cells_closestPointOnBorderTo p rings) (concat rings) (concat sbc) ->
    let n := length (concat sbc) in
    exists g, g2_numNodes g = (3 * n + 1)%nat /\
      (exists ids, round_tour (g_edges (g2_graph g)) (3 * n) ids) /\
      forall ids, solver g (3 * n)%nat = Some ids -> round_tour (g_edges (g2_graph g)) (3 * n) ids ->
      exists r, plan_genRoute wkt keq near node_order edge_order solver rings sbc = Ok r /\ drives_all wkt (concat sbc) r.
  Proof.
    intros Hw (H1 & H2 & H3 & H4 & H5 & H6 & D & HD & H7 & H8) n.
    destruct (genRoute_complete rpoint R (p_default RNum) w_nonpos 0 wkt keq dist_cost mid_point far_point
      (fun p => cells_closestPointOnBorderTo p rings) near node_order edge_order solver Heq Hnear Hswap Hno Heo
      None (concat rings) sbc true (Rtrunc (1000 * D))) as (g & G1 & G2 & G3); auto.
    - apply Forall_forall. intros s Hs. split; [|apply H2; auto]. unfold w_nonpos.
      destruct (Rleb (sw_width s) 0) eqn:E; auto. apply Rleb_true in E. specialize (Hw s Hs). lra.
    - intros x y x' y' Hx Hy. specialize (H7 x y x' y' Hx Hy). unfold dist_cost. apply trunc_mono.
      change (p_distance x y) with (sqrt (dist2 x y)). pose proof (sqrt_pos (dist2 x y)). lra.
    - destruct (trunc_spec (1000 * D)) as (A & B & C); [lra|]. apply lt_IZR. rewrite mult_IZR, <- INR_IZR_INZ.
      eapply Rle_lt_trans; [|exact H8]. apply Rmult_le_compat_r; [apply pos_INR|]. lra.
    - exists g. split; auto. split; auto. intros ids Hs Ht. destruct (G3 ids Hs Ht) as (r & ks & E & P1 & P2 & _).
      exists r. split; [exact E|]. exists ks. auto.
  Qed.
End Route.

(** ** The swaths of a route have positive widths *)
Section Widths.
  Context {P W : Type}.
  Variable Q : swath P W -> Prop.
  Let all (r : route P W) : Prop := forall s, In s (concat (r_swaths r)) -> Q s.

  Lemma addConnection_all r : all r -> all (r_addConnection r).
  Proof. unfold r_addConnection, all. destruct (_ <=? _); auto. Qed.
  Lemma addPoint_all r p r' : all r -> r_addConnection_point r p = Ok r' -> all r'.
  Proof.
    intros H E. unfold r_addConnection_point in E. bok E. injection E as <-. exact (addConnection_all r H).
  Qed.
  Lemma addPoints_all r mp r' : all r -> r_addConnection_points r mp = Ok r' -> all r'.
  Proof.
    intros H. unfold r_addConnection_points. apply foldM_inv; [intros s a s' Hs E; eapply addPoint_all; eauto|].
    destruct (_ <? _); [apply addConnection_all|]; auto.
  Qed.
  Lemma addSwath_all r s r' : all r -> Q s -> r_addSwath r s = Ok r' -> all r'.
  Proof.
    intros H Hs E. unfold r_addSwath in E. bok E. injection E as <-. unfold all. cbn [r_swaths].
    assert (HV : forall x, In x (concat (if (r_sizeVectorSwaths r <? (if r_sizeConnections r =? 0 then r_sizeConnections r + 1 else r_sizeConnections r))%nat
        || (r_sizeVectorSwaths r =? 0)%nat then r_swaths r ++ [[]] else r_swaths r)) -> Q x).
    { intros x Hx. apply H. destruct (_ || _); auto. rewrite concat_app in Hx. simpl in Hx. rewrite app_nil_r in Hx. auto. }
    revert E0 HV. generalize (if (r_sizeVectorSwaths r <? (if r_sizeConnections r =? 0 then r_sizeConnections r + 1 else r_sizeConnections r))%nat
        || (r_sizeVectorSwaths r =? 0)%nat then r_swaths r ++ [[]] else r_swaths r).
    intros v E HV x Hx. unfold upd_back in E. destruct (rev v) as [|b t] eqn:Ev; [discriminate|]. injection E as <-.
    assert (v = rev t ++ [b]) by (rewrite <- (rev_involutive v), Ev; reflexivity). subst v.
    rewrite concat_app in Hx, HV. apply in_app_or in Hx. destruct Hx as [Hx|Hx]; [apply HV; apply in_or_app; auto|].
    simpl in Hx. rewrite app_nil_r in Hx. apply in_app_or in Hx. destruct Hx as [Hx|[<-|[]]]; auto.
    apply HV. apply in_or_app. right. simpl. rewrite app_nil_r. auto.
  Qed.

  Variable p_default : P.
  Variable w_nonpos : W -> bool.
  Variable w_zero : W.
  Variable wkt : P -> P.
  Variable keq : P -> P -> bool.
  Hypothesis HQ : forall s, w_nonpos (sw_width s) = false -> Q s.

  Lemma find_all p_s p_e ss c : find_swath p_default w_nonpos w_zero wkt keq p_s p_e ss = Ok (Some c) -> Q c.
  Proof.
    induction ss as [|s ss IH]; cbn [find_swath]; [discriminate|]. intro E. bok E.
    unfold match_swath in E0. bok E0. unfold swath_clone, swath_new, swath_setWidth in E1.
    destruct (w_nonpos (sw_width s)) eqn:Ew; [discriminate|]. cbn [bind] in E1. injection E1 as <-.
    destruct (_ && _); [injection E0 as <-; injection E as <-; apply HQ; auto|].
    destruct (_ && _); [injection E0 as <-; injection E as <-; apply HQ; auto|]. injection E0 as <-. auto.
  Qed.

  Lemma transform_all rse ids sbc g sg r sg' :
    transformSolutionToRoute p_default w_nonpos w_zero wkt keq rse ids sbc g sg = Ok (r, sg') -> all r.
  Proof.
    intro E. unfold transformSolutionToRoute in E. bok E.
    assert (H : all (fst r0)).
    { revert E0. apply (foldM_inv _ (fun rs => all (fst rs))); [|intros s []].
      intros s i s' Hs E1. unfold transform_step in E1. do 5 bok E1. destruct r5 as [c|]; [|injection E1 as <-; auto].
      apply find_all in E5. unfold add_to_route in E1. bok E1.
      assert (Hr : all (fst r5)).
      { destruct rse; [|injection E6 as <-; auto]. destruct (r_isEmpty (fst s)); [|injection E6 as <-; auto].
        do 2 bok E6. injection E6 as <-. simpl. eapply addPoints_all; eauto. }
      unfold r_addSwath_graph in E1. destruct (r_isEmpty (fst r5)).
      - bok E1. injection E1 as <-. simpl. eapply addSwath_all; eauto.
      - do 4 bok E1. injection E1 as <-. simpl. eapply addSwath_all; [|eauto|eauto]. eapply addPoints_all; eauto. }
    destruct rse; [|injection E as ->; auto]. do 3 bok E. injection E as <- _. eapply addPoints_all; eauto.
  Qed.
End Widths.

Lemma route_widths wkt keq near node_order edge_order solver rings sbc r :
  plan_genRoute wkt keq near node_order edge_order solver rings sbc = Ok r ->
  forall s, In s (concat (r_swaths r)) -> 0 < sw_width s.
Proof.
  intro E. unfold plan_genRoute, genRoute in E. do 4 bok E. injection E as <-. destruct r3 as [r sg']. cbn [fst].
  intros s. revert s. refine (transform_all (fun s : rswath => 0 < sw_width s) _ _ _ _ _ _ _ _ _ _ _ _ _ E3).
  intros s Hs. unfold w_nonpos in Hs. apply Rleb_false in Hs. auto.
Qed.
