(** Proofs about costs of turns. *)
From Coq Require Import List Arith ZArith Bool Reals Lia Lra.
From Verif Require Import Outcome Num ListAux Point_Model Angle_Model Angle_Spec Angle_Proofs Angle_Proofs2 Angle_Props
  Path_Model Path_Spec Path_Proofs Path_Proofs2 Objective_Spec Objective_Proofs Objective_Proofs2 Robot_Model Turning_Model Turning_Spec
  Turning_Proofs Turning_Props Swath_Model Route_Model Objective_Model CompleteTurn_Model CompleteTurn_Spec.
Import ListNotations.
Open Scope R_scope.

Lemma length_sum_from (g : list rstate) : forall x : R,
  fold_left (fun d s => nadd RNum d (nabs RNum (ps_len s))) g x = x + rsum (map (fun s : pstate RNum => Rabs (ps_len s : R)) g).
Proof.
  induction g as [|s g IH]; intro x; cbn [fold_left map rsum fold_right]; [unfold rsum; simpl; ring|].
  rewrite IH. unfold rsum. cbn [fold_right].
  change (x + Rabs (ps_len s) + fold_right Rplus 0 (map (fun s : pstate RNum => Rabs (ps_len s : R)) g) =
    x + (Rabs (ps_len s) + fold_right Rplus 0 (map (fun s : pstate RNum => Rabs (ps_len s : R)) g))). ring.
Qed.
Lemma length_sum (g : list rstate) : path_length RNum g = rsum (map (fun s : pstate RNum => Rabs (ps_len s : R)) g).
Proof. unfold path_length. rewrite length_sum_from. apply Rplus_0_l. Qed.

Section Cost.
  Variable simple : robot RNum -> R -> R -> R -> R -> outcome (list (pstate RNum)).

  (** The cost depends only on the numbers of the request. *)
  Lemma cost_normal o p a q b d rot sa ea inv : transformToNormalTurn p a q b = (d, rot, sa, ea, inv) ->
    to_cost simple o p a q b =
      (do r <- (if t_using (to_turner o) then createTurnIfNotCached simple (to_turner o) (to_robot o) d sa ea
                else do g <- simple (to_robot o) (t_disc (to_turner o)) d sa ea; Ok (g, to_turner o));
       Ok (turn_length (fst r), mkTO (snd r) (to_robot o))).
  Proof.
    intro E. unfold to_cost, createTurn. rewrite E.
    destruct (if t_using (to_turner o) then _ else _) as [[g t]| | |]; cbn [bind]; try reflexivity.
    destruct (Nat.leb (length g) 1) eqn:L; cbn [bind fst snd].
    - apply Nat.leb_le in L. destruct g as [|s [|s' g]]; simpl in L; try lia; reflexivity.
    - apply Nat.leb_gt in L.
      assert (HL : forall g' : list rstate, map (fun s : pstate RNum => Rabs (ps_len s : R)) g' = map (fun s : pstate RNum => Rabs (ps_len s : R)) g ->
        exists r, correctPath g' p q = Ok r /\ map (fun s : pstate RNum => Rabs (ps_len s : R)) r = map (fun s : pstate RNum => Rabs (ps_len s : R)) g).
      { intros g' Hg'. assert (L' : (2 <= length g')%nat) by (rewrite <- (map_length (fun s : pstate RNum => Rabs (ps_len s : R)) g'), Hg', map_length; lia).
        destruct (two_ends g' L') as (s & mid & e & ->). rewrite correct_ends. eexists; split; [reflexivity|]. rewrite <- Hg'.
        cbn [map]. rewrite !map_app. cbn [map].
        assert (K : forall c (s : rstate), ps_len (snap c s) = ps_len s) by (intros; unfold snap; destruct (Rlt_dec _ _); reflexivity).
        rewrite !K. reflexivity. }
      destruct (HL (map (turn_place rot p) (if inv then map turn_mirror g else g))) as (r & Hr & Hm).
      { destruct inv; rewrite !map_map; reflexivity. }
      rewrite Hr. cbn [bind fst snd]. rewrite length_sum, Hm. destruct g as [|s [|s' g]]; simpl in L; try lia. reflexivity.
  Qed.

  Lemma cost_ok o p a q b c o' : to_cost simple o p a q b = Ok (c, o') ->
    exists d sa ea g, request p a q b d sa ea /\
      (if t_using (to_turner o) then createTurnIfNotCached simple (to_turner o) (to_robot o) d sa ea = Ok (g, to_turner o')
       else simple (to_robot o) (t_disc (to_turner o)) d sa ea = Ok g /\ to_turner o' = to_turner o) /\
      c = turn_length g /\ to_robot o' = to_robot o.
  Proof.
    destruct (transformToNormalTurn p a q b) as [[[[d rot] sa] ea] inv] eqn:E. rewrite (cost_normal _ _ _ _ _ _ _ _ _ _ E). intro H.
    exists d, sa, ea. destruct (t_using (to_turner o)).
    - destruct (createTurnIfNotCached simple (to_turner o) (to_robot o) d sa ea) as [[g t]| | |]; cbn [bind fst snd] in H; try discriminate.
      injection H as <- <-. exists g. split; [exists rot, inv; exact E|]. auto.
    - destruct (simple (to_robot o) (t_disc (to_turner o)) d sa ea) as [g| | |]; cbn [bind fst snd] in H; try discriminate.
      injection H as <- <-. exists g. split; [exists rot, inv; exact E|]. auto.
  Qed.
End Cost.

(** Normal forms of requests that are moved onto each other agree. *)
Lemma inverted_strict p a q b d rot sa ea : transformToNormalTurn p a q b = (d, rot, sa, ea, true) -> 0 < sa < PI.
Proof.
  unfold transformToNormalTurn. set (u := mod_2pi (a - mod_2pi (angleFromPoint (p_sub RNum q p)))).
  assert (Ru : 0 <= u < 2 * PI) by apply mod2_range.
  destruct (Rlt_dec PI u) as [L|L]; intro H; injection H as _ _ <- _; [|discriminate].
  rewrite (mod2_unique (- u) (2 * PI - u)); [lra|lra|]. exists 1%Z. simpl. ring.
Qed.

Lemma cos_strict x y : 0 <= x <= PI -> 0 <= y <= PI -> cos x = cos y -> x = y.
Proof. intros. apply cos_inj; auto. Qed.

Lemma sgn_cos sg x : sg = 1 \/ sg = -1 -> cos (sg * x) = cos x.
Proof. intros [-> | ->]; [rewrite Rmult_1_l; auto|]. replace (-1 * x) with (- x) by ring. apply cos_neg. Qed.
Lemma sgn_sin sg x : sg = 1 \/ sg = -1 -> sin (sg * x) = sg * sin x.
Proof. intros [-> | ->]; [rewrite !Rmult_1_l; auto|]. replace (-1 * x) with (- x) by ring. rewrite sin_neg. ring. Qed.
Lemma sgn_congr sg x y : sg = 1 \/ sg = -1 -> congruent (sg * x) (sg * y) -> congruent x y.
Proof.
  intros [-> | ->]; [rewrite !Rmult_1_l; auto|]. intro H. apply congr_opp in H.
  replace (- (-1 * x)) with x in H by ring. replace (- (-1 * y)) with y in H by ring. exact H.
Qed.
Lemma sgn_congr' sg x y : sg = 1 \/ sg = -1 -> congruent x y -> congruent (sg * x) (sg * y).
Proof.
  intros [-> | ->] H; [rewrite !Rmult_1_l; auto|]. apply congr_opp in H.
  replace (-1 * x) with (- x) by ring. replace (-1 * y) with (- y) by ring. exact H.
Qed.

Lemma moved_request (c : pt) th sg (p q p' q' : pt) a b a' b' d sa ea : sg = 1 \/ sg = -1 -> dist2 p q <> 0 ->
  at_xy p' (placing c th sg p) -> at_xy q' (placing c th sg q) ->
  congruent a' (th + sg * a) -> congruent b' (th + sg * b) -> sg = 1 \/ off_line p a q ->
  request p a q b d sa ea -> request p' a' q' b' d sa ea.
Proof.
  intros Hsg Hne [P1 P2] [Q1 Q2] Ha Hb Hoff (rot & inv & E). unfold request.
  destruct (transformToNormalTurn p' a' q' b') as [[[[d' rot'] sa'] ea'] inv'] eqn:E'.
  destruct (normal_turn _ _ _ _ _ _ _ _ _ E) as (Hd & _ & Rs & Re & _ & _ & [N1 N2] & Ca & Cb).
  destruct (normal_turn _ _ _ _ _ _ _ _ _ E') as (Hd' & _ & Rs' & Re' & _ & _ & [N1' N2'] & Ca' & Cb').
  assert (I : inv = true -> 0 < sa < PI) by (intros ->; eapply inverted_strict; eauto).
  assert (I' : inv' = true -> 0 < sa' < PI) by (intros ->; eapply inverted_strict; eauto).
  clear E E'. set (s1 := if inv then -1 else 1) in *. set (s1' := if inv' then -1 else 1) in *.
  assert (H1 : s1 = 1 \/ s1 = -1) by (subst s1; destruct inv; auto).
  assert (H1' : s1' = 1 \/ s1' = -1) by (subst s1'; destruct inv'; auto).
  unfold placing in *. cbn [fst snd px py] in *.
  assert (Ed : d' = d).
  { rewrite Hd, Hd'. f_equal. unfold dist2. rewrite P1, P2, Q1, Q2.
    transitivity (((px p - px q) * (px p - px q) + sg * sg * ((py p - py q) * (py p - py q))) * (sin th * sin th + cos th * cos th)); [ring|].
    pose proof (sin2_cos2 th) as T. unfold Rsqr in T. rewrite T. destruct Hsg as [-> | ->]; ring. }
  clear Hd'. rewrite Ed in N1', N2'. assert (Dpos : 0 < d). { rewrite Hd. apply sqrt_lt_R0. pose proof (dist2_nonneg p q). lra. }
  assert (Hrot : congruent rot' (th + sg * rot)).
  { assert (X : d * cos rot' = d * cos (th + sg * rot)).
    { rewrite cos_plus, (sgn_cos sg rot Hsg), (sgn_sin sg rot Hsg).
      transitivity (px q' - px p'); [rewrite N1'; ring|]. rewrite P1, Q1, N1, N2. ring. }
    assert (Y : d * sin rot' = d * sin (th + sg * rot)).
    { rewrite sin_plus, (sgn_cos sg rot Hsg), (sgn_sin sg rot Hsg).
      transitivity (py q' - py p'); [rewrite N2'; ring|]. rewrite P2, Q2, N1, N2. ring. }
    apply angle_unique; eapply Rmult_eq_reg_l; eauto; lra. }
  assert (K : forall x x' y y', congruent (rot + s1 * x) y -> congruent (rot' + s1' * x') y' -> congruent y' (th + sg * y) ->
    congruent (s1' * x') (sg * s1 * x)).
  { intros x x' y y' A B C. replace (s1' * x') with (rot' + s1' * x' + - rot') by ring.
    replace (sg * s1 * x) with (th + sg * (rot + s1 * x) + - (th + sg * rot)) by ring.
    apply congr_add; [|apply congr_opp; exact Hrot]. eapply congruent_trans; [exact B|]. eapply congruent_trans; [exact C|].
    apply congr_add; [apply congruent_refl|]. apply sgn_congr'; auto. apply congruent_sym; auto. }
  pose proof (K _ _ _ _ Ca Ca' Ha) as Ka. pose proof (K _ _ _ _ Cb Cb' Hb) as Kb.
  assert (Hss : sg * s1 = 1 \/ sg * s1 = -1) by (destruct Hsg as [-> | ->]; destruct H1 as [-> | ->]; lra).
  assert (Es : sa' = sa).
  { apply cos_inj; try lra. pose proof (cos_congruent _ _ Ka) as C. rewrite (sgn_cos s1' _ H1'), (sgn_cos _ _ Hss) in C. exact C. }
  subst sa'. assert (Eq : s1' = sg * s1).
  { destruct (Req_dec (sin sa) 0) as [Z|Z].
    - assert (NI : ~ 0 < sa < PI). { intros [A B]. pose proof (sin_gt_0 sa A B). lra. }
      assert (F : inv = false) by (destruct inv; auto; exfalso; auto). assert (F' : inv' = false) by (destruct inv'; auto; exfalso; auto).
      subst s1 s1'. rewrite F, F' in *. destruct Hoff as [-> | Hoff]; [lra|]. exfalso. apply Hoff.
      rewrite <- (cos_congruent _ _ Ca), <- (sin_congruent _ _ Ca), N1, N2, Rmult_1_l, cos_plus, sin_plus, Z. ring.
    - pose proof (sin_congruent _ _ Ka) as C. rewrite (sgn_sin s1' _ H1'), (sgn_sin _ _ Hss) in C. eapply Rmult_eq_reg_r; eauto. }
  rewrite Eq in Kb. apply (sgn_congr _ _ _ Hss) in Kb.
  assert (Ee : ea' = ea). { rewrite <- (mod2_id ea), <- (mod2_id ea') by auto. apply mod2_eq_iff. exact Kb. }
  subst. exists rot', inv'. reflexivity.
Qed.
