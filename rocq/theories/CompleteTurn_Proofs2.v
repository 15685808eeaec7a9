(** Proofs about costs of turns over histories and routes. *)
From Coq Require Import List Arith ZArith Bool Reals Lia Lra.
From Verif Require Import Outcome Num ListAux Point_Model Angle_Model Angle_Spec Angle_Proofs Angle_Proofs2
  Path_Model Path_Spec Objective_Spec Objective_Proofs Objective_Props Robot_Model Turning_Model Turning_Spec
  Turning_Proofs Turning_Props Turning_Props2 Swath_Model Route_Model Route_Spec Route_Proofs Objective_Model CompleteTurn_Model CompleteTurn_Spec
  CompleteTurn_Proofs Graph_Proofs4.
Import ListNotations.
Open Scope R_scope.

Section History.
  Variable simple : robot RNum -> R -> R -> R -> R -> outcome (list (pstate RNum)).
  Variable rb : robot RNum.

  Lemma history_turns ops : forall o, Forall (fun c => exists p a q b, c = ToCost p a q b) ops ->
    foldM (to_step simple) ops (to_new rb) = Ok o -> to_robot o = rb /\
    exists tops, foldM (turn_step simple) tops turner_new = Ok (to_turner o) /\ Forall (fun t => exists p a q b, t = OpTurn rb p a q b) tops.
  Proof.
    induction ops as [|c ops IH] using rev_ind; intros o F H.
    - cbn [foldM] in H. injection H as <-. split; [reflexivity|]. exists []. split; [reflexivity|constructor].
    - apply Forall_app in F. destruct F as [F Fc]. inversion Fc as [|? ? (p & a & q & b & ->) _]. subst.
      rewrite foldM_snoc in H. destruct (foldM (to_step simple) ops (to_new rb)) as [o1| | |] eqn:E1; try discriminate. cbn [bind] in H.
      destruct (IH o1 F eq_refl) as (R1 & tops & T1 & T2). cbn [to_step] in H. unfold to_cost in H.
      destruct (createTurn simple (to_turner o1) (to_robot o1) p a q b) as [[r t]| | |] eqn:E; try discriminate. cbn [bind fst snd] in H.
      injection H as <-. cbn [to_robot to_turner]. split; [exact R1|]. exists (tops ++ [OpTurn rb p a q b]). split.
      + rewrite foldM_snoc, T1. cbn [bind turn_step]. rewrite <- R1, E. reflexivity.
      + apply Forall_app. split; [exact T2|]. constructor; [eauto|constructor].
  Qed.

  Lemma turns_only tops : Forall (fun t => exists p a q b, t = OpTurn rb p a q b) tops -> disc_after tops = 1 / 100 /\ use_after tops = true.
  Proof.
    intro F. unfold disc_after, use_after. split; [generalize (1 / 100)|generalize true]; induction F as [|t tops (p & a & q & b & ->) F IH]; intro x; auto.
    - apply IH.
    - apply IH.
  Qed.
End History.

Section Routes.
  Variable simple : robot RNum -> R -> R -> R -> R -> outcome (list (pstate RNum)).
  Variable o : turn_obj.
  Variable cost4 : rpoint -> R -> rpoint -> R -> R.
  Hypothesis Hc : forall p a q b, to_cost simple o p a q b = Ok (cost4 p a q b, o).
  Context {W : Type}.
  Notation swath := (swath rpoint W).
  Notation origin := (mkPoint (N := RNum) 0 0 0).
  Notation direct := (direct_cost4 RNum p_distance).

  Lemma jump_extra (s t : swath) : long s -> long t -> exists x y, rp_cost_swath_swath RNum origin seg_angle direct s t = Ok x /\
    to_cost_swath_swath simple o s t = Ok (y, o) /\
    y = x + match rev (sw_path s), sw_path t with
      | b :: a :: _, c :: e :: _ => cost4 b (seg_angle a b) c (seg_angle c e) - R_sqrt.sqrt (dist2 b c)
      | _, _ => 0
      end.
  Proof.
    unfold long. intros Hs Ht. unfold rp_cost_swath_swath, to_cost_swath_swath, sw_getOutAngle, sw_getInAngle, swath_endPoint, swath_startPoint.
    rewrite <- rev_length in Hs. destruct (rev (sw_path s)) as [|b [|a l]]; simpl in Hs; try lia.
    destruct (sw_path t) as [|c [|e m]]; simpl in Ht; try lia. cbn [bind hd]. rewrite Hc. do 2 eexists. split; [reflexivity|]. split; [reflexivity|].
    unfold direct_cost4. change (p_distance b c) with (R_sqrt.sqrt (dist2 b c)).
    assert (Q : forall u v : R, u = v + (u - v)) by (intros; ring). apply Q.
  Qed.

  Lemma jumps_extra : forall (g : list swath) s acc acc', Forall long (s :: g) -> exists x,
    rp_jumps RNum origin seg_angle direct acc s g = Ok x /\
    to_jumps simple o acc' s g = Ok (x + (acc' - acc) + extra seg_angle cost4 (s :: g), o).
  Proof.
    induction g as [|t g IH]; intros s acc acc' HF.
    - exists acc. split; [reflexivity|]. cbn [to_jumps extra]. do 2 f_equal. ring.
    - inversion HF as [|? ? Hs HF']. subst. inversion HF' as [|? ? Ht _]. subst.
      destruct (jump_extra s t Hs Ht) as (x & y & E1 & E2 & E3). cbn [rp_jumps to_jumps]. rewrite E1, E2. cbn [bind fst snd].
      destruct (IH t (nadd RNum acc x) (acc' + y) HF') as (z & Z1 & Z2). exists z. split; [exact Z1|]. rewrite Z2. do 2 f_equal.
      change (extra seg_angle cost4 (s :: t :: g)) with (match rev (sw_path s), sw_path t with
      | b :: a :: _, c :: e :: _ => cost4 b (seg_angle a b) c (seg_angle c e) - R_sqrt.sqrt (dist2 b c)
      | _, _ => 0 end + extra seg_angle cost4 (t :: g)).
      change (nadd RNum acc x) with (acc + x). rewrite E3.
      match goal with |- context [match rev (sw_path s) with _ => _ end] => generalize (match rev (sw_path s), sw_path t with
      | b :: a :: _, c :: e :: _ => cost4 b (seg_angle a b) c (seg_angle c e) - R_sqrt.sqrt (dist2 b c)
      | _, _ => 0 end) end. intro v. assert (Q : forall z acc acc' x v e : R, z + (acc' + (x + v) - (acc + x)) + e = z + (acc' - acc) + (v + e)) by (intros; ring).
      apply Q.
  Qed.

  Lemma swaths_extra (g : list swath) : Forall long g -> exists x,
    rp_cost_swaths RNum origin seg_angle p_distance direct g = Ok x /\ to_cost_swaths simple o g = Ok (x + extra seg_angle cost4 g, o).
  Proof.
    intro HF. unfold rp_cost_swaths, to_cost_swaths. change (nofZ RNum 0) with 0.
    change (fold_left (fun (acc : RNum) (s : swath) => nadd RNum acc (rp_cost_swath RNum p_distance s)) g 0)
      with (fold_left (fun (acc : R) (s : swath) => acc + rp_cost_swath RNum p_distance s) g 0).
    generalize (fold_left (fun (acc : R) (s : swath) => acc + rp_cost_swath RNum p_distance s) g 0). intro d.
    destruct g as [|s g]; [exists d; split; [reflexivity|cbn [extra]; rewrite Rplus_0_r; reflexivity]|].
    destruct (jumps_extra g s d d HF) as (x & E1 & E2). exists x. split; [exact E1|]. rewrite E2. do 2 f_equal. ring.
  Qed.

  Lemma groups_extra : forall (v : list (list swath)) (acc acc' : R), Forall good v -> exists x,
    foldM (fun acc g => do c <- rp_cost_swaths RNum origin seg_angle p_distance direct g; Ok (nadd RNum acc c)) v acc = Ok x /\
    foldM (fun (acc : R * turn_obj) g => do c <- to_cost_swaths simple (snd acc) g; Ok (fst acc + fst c, snd c)) v (acc', o) =
      Ok (x + (acc' - acc) + rsum (map (extra seg_angle cost4) v), o).
  Proof.
    induction v as [|g v IH]; intros acc acc' HF.
    - exists acc. split; [reflexivity|]. cbn [foldM map]. unfold rsum. cbn [fold_right]. do 2 f_equal. ring.
    - inversion HF as [|? ? [_ Hg] HF']. subst. destruct (swaths_extra g Hg) as (x & E1 & E2). cbn [foldM]. cbn [fst snd]. rewrite E1, E2. cbn [bind fst snd].
      destruct (IH (nadd RNum acc x) (acc' + (x + extra seg_angle cost4 g)) HF') as (z & Z1 & Z2). exists z. split; [exact Z1|]. rewrite Z2. do 2 f_equal.
      cbn [map]. unfold rsum. cbn [fold_right]. change (nadd RNum acc x) with (acc + x). ring.
  Qed.

  Lemma step_shift (r : route rpoint W) (y acc : R) i : rp_route_step RNum origin seg_angle p_distance r (acc + y) i =
    do c <- rp_route_step RNum origin seg_angle p_distance r acc i; Ok (c + y).
  Proof.
    unfold rp_route_step. destruct (r_getConnection r i) as [c| | |]; cbn [bind]; auto. destruct (r_getSwaths r i) as [g| | |]; cbn [bind]; auto.
    destruct (rp_cost_mp_swaths RNum origin seg_angle p_distance c g) as [a| | |]; cbn [bind]; auto.
    assert (Q : forall acc y a : R, acc + y + a = acc + a + y) by (intros; ring).
    assert (Q2 : forall acc y a b : R, acc + y + a + b = acc + a + b + y) by (intros; ring).
    destruct (S i <? r_sizeConnections r)%nat; cbn [bind]; [|f_equal; apply Q].
    destruct (r_getConnection r (S i)) as [c'| | |]; cbn [bind]; auto.
    destruct (rp_cost_swaths_mp RNum origin seg_angle p_distance g c') as [b| | |]; cbn [bind]; auto. f_equal. apply Q2.
  Qed.
  Lemma steps_shift (r : route rpoint W) (y : R) : forall l acc, foldM (rp_route_step RNum origin seg_angle p_distance r) l (acc + y) =
    do c <- foldM (rp_route_step RNum origin seg_angle p_distance r) l acc; Ok (c + y).
  Proof.
    induction l as [|i l IH]; intro acc; [reflexivity|]. cbn [foldM]. rewrite step_shift.
    destruct (rp_route_step RNum origin seg_angle p_distance r acc i) as [c| | |]; cbn [bind]; auto.
  Qed.
  Lemma points_shift (l : list (list rpoint)) (y : R) : forall acc, fold_left (fun (acc : R) c => acc + rp_cost_points RNum p_distance c) l (acc + y) =
    fold_left (fun acc c => acc + rp_cost_points RNum p_distance c) l acc + y.
  Proof.
    induction l as [|c l IH]; intro acc; [reflexivity|]. cbn [fold_left]. rewrite <- IH. f_equal.
    assert (Q : forall acc y a : R, acc + y + a = acc + a + y) by (intros; ring). apply Q.
  Qed.

  Lemma route_extra (r : route rpoint W) c0 : Forall good (r_swaths r) ->
    rp_cost_route RNum origin seg_angle p_distance direct r = Ok c0 ->
    to_cost_route simple o r = Ok (c0 + rsum (map (extra seg_angle cost4) (r_swaths r)), o).
  Proof.
    intros HG H. unfold rp_cost_route in H. unfold to_cost_route. change (nofZ RNum 0) with 0 in H.
    destruct (groups_extra (r_swaths r) 0 0 HG) as (x & E1 & E2). rewrite E1 in H. rewrite E2. cbn [bind fst snd] in *.
    replace (x + (0 - 0) + rsum (map (extra seg_angle cost4) (r_swaths r))) with (x + rsum (map (extra seg_angle cost4) (r_swaths r))) by ring.
    rewrite points_shift, steps_shift.
    change (foldM (rp_route_step RNum origin seg_angle p_distance r) (seq 0 (r_sizeVectorSwaths r))
      (fold_left (fun acc c => acc + rp_cost_points RNum p_distance c) (r_conns r) x) = Ok c0) in H.
    rewrite H. reflexivity.
  Qed.
End Routes.
