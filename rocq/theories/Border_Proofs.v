(** Proofs about borders. *)
From Coq Require Import List Arith Lia ZArith Bool Reals Lra.
From Verif Require Import Outcome Num ListAux Point_Model Angle_Model Angle_Spec Angle_Proofs Angle_Props SwathGen_Model
  Container_Model Container_Proofs Border_Model Border_Spec.
Import ListNotations.
Open Scope R_scope.

(** *** The turn angle *)
Lemma dist_sqr (a b : pt) : p_distance a b * p_distance a b = dist2 a b.
Proof.
  unfold p_distance. apply R_sqrt.sqrt_sqrt. 
  assert (Q : forall x y : R, 0 <= x * x + y * y) by (intros x y; pose proof (Rle_0_sqr x); pose proof (Rle_0_sqr y); unfold Rsqr in *; lra).
  apply Q.
Qed.

Lemma dist_pos (a b : pt) : 0 < dist2 a b -> 0 < p_distance a b.
Proof. intros H. apply R_sqrt.sqrt_lt_R0. exact H. Qed.

Lemma turn_products (a b c : pt) : 0 < dist2 a b -> 0 < dist2 b c ->
  let A := angleFromPoints3 a b c in
  cross a b c = p_distance a b * p_distance b c * sin A /\ dot a b c = p_distance a b * p_distance b c * cos A.
Proof.
  intros H1 H2 A. destruct (turn_angle a b c) as [_ [E1 E2]]. fold A in E1, E2.
  pose proof (dist_pos a b H1) as D1. pose proof (dist_sqr a b) as S1.
  unfold cross, dot. unfold dist2 in S1.
  set (d := p_distance a b) in *. set (e := p_distance b c) in *.
  assert (Q : forall d e ux uy vx vy s c0 : R, 0 < d -> d * d = ux * ux + uy * uy ->
    d * vx = e * (ux * c0 - uy * s) -> d * vy = e * (ux * s + uy * c0) ->
    ux * vy - uy * vx = d * e * s /\ ux * vx + uy * vy = d * e * c0).
  { intros d0 e0 ux uy vx vy s c0 Hd S V1 V2. split; apply (Rmult_eq_reg_l d0); try lra.
    - replace (d0 * (ux * vy - uy * vx)) with (ux * (d0 * vy) - uy * (d0 * vx)) by ring. rewrite V1, V2.
      replace (d0 * (d0 * e0 * s)) with (d0 * d0 * (e0 * s)) by ring. rewrite S. ring.
    - replace (d0 * (ux * vx + uy * vy)) with (ux * (d0 * vx) + uy * (d0 * vy)) by ring. rewrite V1, V2.
      replace (d0 * (d0 * e0 * c0)) with (d0 * d0 * (e0 * c0)) by ring. rewrite S. ring. }
  apply Q; auto. rewrite S1. 
  assert (Q2 : forall x y z w : R, (x - y) * (x - y) + (z - w) * (z - w) = (y - x) * (y - x) + (w - z) * (w - z)) by (intros; ring).
  apply Q2.
Qed.

Lemma left_iff (a b c : pt) : 0 < dist2 a b -> 0 < dist2 b c ->
  (Rltb (angleFromPoints3 a b c) PI = true <-> leftwards a b c) /\
  (Rltb (angleFromPoints3 a b c) PI = false <-> rightwards a b c).
Proof.
  intros H1 H2. destruct (turn_products a b c H1 H2) as [C D]. destruct (turn_angle a b c) as [A _].
  set (t := angleFromPoints3 a b c) in *. pose proof (dist_pos a b H1) as D1. pose proof (dist_pos b c H2) as D2.
  assert (P : 0 < p_distance a b * p_distance b c) by (apply Rmult_lt_0_compat; auto).
  set (m := p_distance a b * p_distance b c) in *. pose proof PI_RGT_0 as PI0.
  assert (L : t < PI -> leftwards a b c).
  { intros Lt. destruct (Req_dec t 0) as [Z|Z].
    - right. rewrite C, D, Z, sin_0, cos_0. split; lra.
    - left. rewrite C. apply Rmult_lt_0_compat; auto. apply sin_gt_0; lra. }
  assert (Rt : PI <= t -> rightwards a b c).
  { intros Lt. destruct (Req_dec t PI) as [Z|Z].
    - right. rewrite C, D, Z, sin_PI, cos_PI. split; lra.
    - left. rewrite C. assert (sin t < 0) by (apply sin_lt_0; lra). 
      replace 0 with (m * 0) by ring. apply Rmult_lt_compat_l; auto. }
  assert (X : leftwards a b c -> rightwards a b c -> False) by (unfold leftwards, rightwards; lra).
  rewrite Rltb_true, Rltb_false. split; split; auto.
  - intros K. destruct (Rlt_le_dec t PI); auto. exfalso; auto.
  - intros K. destruct (Rlt_le_dec t PI); auto. exfalso; auto.
Qed.

(** *** The convexity test *)
Lemma at_succ (l : list pt) i a b c : nth_error l i = Some a -> nth_error l (i + 1) = Some b -> nth_error l (i + 2) = Some c ->
  successive l a b c.
Proof.
  intros A B C. apply nth_error_split in A as [pre [post [E L]]]. exists pre. subst l.
  rewrite nth_error_app2 in B, C by lia. replace (i + 1 - length pre)%nat with 1%nat in B by lia.
  replace (i + 2 - length pre)%nat with 2%nat in C by lia. cbn [nth_error] in B, C.
  destruct post as [|b' post]; [discriminate|]. destruct post as [|c' post]; [discriminate|]. cbn [nth_error] in B, C.
  injection B as ->. injection C as ->. now exists post.
Qed.

Lemma succ_at (l : list pt) a b c : successive l a b c ->
  exists i, (i + 2 < length l)%nat /\ nth_error l i = Some a /\ nth_error l (i + 1) = Some b /\ nth_error l (i + 2) = Some c.
Proof.
  intros [pre [post E]]. exists (length pre). subst l.
  rewrite app_length; cbn [length]. split; [lia|].
  rewrite !nth_error_app2 by lia. replace (length pre - length pre)%nat with 0%nat by lia.
  replace (length pre + 1 - length pre)%nat with 1%nat by lia. replace (length pre + 2 - length pre)%nat with 2%nat by lia.
  repeat split; reflexivity.
Qed.

Lemma succ_apart (l : list pt) a b c : no_stop l -> successive l a b c -> 0 < dist2 a b /\ 0 < dist2 b c.
Proof.
  intros N [pre [post E]]. split; [exact (N pre a b (c :: post) E)|].
  apply (N (pre ++ [a]) b c post). rewrite E, <- app_assoc. reflexivity.
Qed.

Lemma getAng_ok (l : list pt) i : (i + 2 < length l)%nat -> exists a b c, getAng l i = Ok (angleFromPoints3 a b c) /\
  nth_error l i = Some a /\ nth_error l (i + 1) = Some b /\ nth_error l (i + 2) = Some c.
Proof.
  intros H. unfold getAng, vec_at.
  destruct (nth_error l i) as [a|] eqn:A; [|apply nth_error_None in A; lia].
  destruct (nth_error l (i + 1)) as [b|] eqn:B; [|apply nth_error_None in B; lia].
  destruct (nth_error l (i + 2)) as [c|] eqn:C; [|apply nth_error_None in C; lia].
  exists a, b, c. cbn [bind]. auto.
Qed.

Definition side (inv : bool) (a b c : pt) : Prop := if inv then leftwards a b c else rightwards a b c.

Lemma side_iff inv (l : list pt) a b c : no_stop l -> successive l a b c ->
  (Bool.eqb inv (Rltb (angleFromPoints3 a b c) PI) = true <-> side inv a b c).
Proof.
  intros N S. destruct (succ_apart l a b c N S) as [H1 H2]. destruct (left_iff a b c H1 H2) as [L Rr].
  unfold side. destruct inv; rewrite eqb_true_iff; [|split; intros K]; try (rewrite <- L; split; auto).
  - apply Rr; auto.
  - symmetry; now apply Rr.
Qed.

Lemma convex_loop_ok inv (l : list pt) : no_stop l -> forall k s, (s + k + 2 <= length l)%nat ->
  exists b, convex_loop l inv (seq s k) = Ok b /\
    (b = true <-> forall i x y z, (s <= i < s + k)%nat -> nth_error l i = Some x -> nth_error l (i + 1) = Some y ->
       nth_error l (i + 2) = Some z -> side inv x y z).
Proof.
  intros N; induction k as [|k IH]; intros s H; cbn [seq convex_loop].
  - exists true; split; auto. split; auto. intros _ i x y z I; lia.
  - destruct (getAng_ok l s) as [x [y [z [E [X [Y Z]]]]]]; [lia|]. rewrite E; cbn [bind].
    pose proof (side_iff inv l x y z N (at_succ l s x y z X Y Z)) as SI.
    destruct (Bool.eqb inv (Rltb (angleFromPoints3 x y z) PI)).
    + destruct (IH (S s)) as [b [E' B]]; [lia|]. exists b. split; auto. rewrite B. split; intros G i x' y' z' I X' Y' Z'.
      * destruct (Nat.eq_dec i s) as [->|Hn]; [|apply (G i x' y' z'); auto; lia].
        rewrite X in X'; rewrite Y in Y'; rewrite Z in Z'. injection X' as <-. injection Y' as <-. injection Z' as <-. now apply SI.
      * apply (G i x' y' z'); auto; lia.
    + exists false; split; auto. split; [discriminate|]. intros G.
      assert (K : side inv x y z) by (apply (G s); auto; lia). now apply SI in K.
Qed.

Lemma cell_convex_ok area (border : list pt) : 0 < area [border] -> (3 <= length border)%nat -> no_stop border ->
  exists b, cell_isConvex area [border] = Ok b /\
    (b = true <-> (forall x y z, successive border x y z -> leftwards x y z) \/
                  (forall x y z, successive border x y z -> rightwards x y z)).
Proof.
  intros A L N. unfold cell_isConvex. change (Nat.ltb 0 (length [border] - 1)) with false. cbn [orb].
  rewrite (proj2 (Rleb_false (area [border]) 0) A). rewrite (proj2 (Nat.ltb_ge (length border) 2)) by lia.
  destruct (getAng_ok border 0) as [x [y [z [E [X [Y Z]]]]]]; [lia|]. rewrite E; cbn [bind].
  set (inv := Rltb (angleFromPoints3 x y z) PI).
  destruct (convex_loop_ok inv border N (length border - 2 - 1) 1) as [b [E' B]]; [lia|]. exists b; split; auto.
  pose proof (at_succ border 0 x y z X Y Z) as S0.
  assert (F : side inv x y z) by (apply (side_iff inv border x y z N S0); unfold inv; now rewrite eqb_reflx).
  assert (G : b = true <-> forall x y z, successive border x y z -> side inv x y z).
  { rewrite B. split; intros G.
    - intros x' y' z' SU. destruct (succ_at border x' y' z' SU) as [i [I [X' [Y' Z']]]].
      destruct i as [|i]; [|apply (G (S i)); auto; lia].
      rewrite X in X'; rewrite Y in Y'; rewrite Z in Z'. injection X' as <-. injection Y' as <-. injection Z' as <-. exact F.
    - intros i x' y' z' I X' Y' Z'. apply G. now apply (at_succ border i). }
  rewrite G. assert (NB : forall u v w, leftwards u v w -> rightwards u v w -> False) by (unfold leftwards, rightwards; intros; lra).
  unfold side in *. destruct inv.
  - split; [now left|]. intros [K|K]; auto. exfalso. exact (NB _ _ _ F (K _ _ _ S0)).
  - split; [now right|]. intros [K|K]; auto. exfalso. exact (NB _ _ _ (K _ _ _ S0) F).
Qed.

(** *** The nearest crossing *)
Lemma fold_concat {A S} (f : S -> A -> S) : forall (ls : list (list A)) s,
  fold_left (fun st l => fold_left f l st) ls s = fold_left f (concat ls) s.
Proof. induction ls as [|l ls IH]; intros s; cbn [fold_left concat]; auto. now rewrite fold_left_app, IH. Qed.

Lemma nearer_fold (p : pt) : forall l pre st,
  (forall r, In r (pre ++ l) -> p_distance r p < dbl_max) ->
  ((st = (p, dbl_max) /\ forall r, In r pre -> ~ / 100000 < p_distance r p) \/
   (snd st = p_distance (fst st) p /\ first_crossing pre p (fst st))) ->
  let st' := fold_left (nearer p) l st in
  (st' = (p, dbl_max) /\ forall r, In r (pre ++ l) -> ~ / 100000 < p_distance r p) \/
  (snd st' = p_distance (fst st') p /\ first_crossing (pre ++ l) p (fst st')).
Proof.
  induction l as [|x l IH]; intros pre st M I; cbn [fold_left]; [now rewrite app_nil_r|].
  specialize (IH (pre ++ [x]) (nearer p st x)). rewrite <- app_assoc in IH. cbn [app] in IH. apply IH; auto.
  assert (Mx : p_distance x p < dbl_max) by (apply M; apply in_or_app; right; now left).
  unfold nearer. destruct (Rltb (/ 100000) (p_distance x p)) eqn:F; cbn [andb].
  - apply Rltb_true in F. destruct (Rltb (p_distance x p) (snd st)) eqn:G.
    + apply Rltb_true in G. right; cbn [fst snd]; split; auto. exists pre, []. split; [reflexivity|]. split; [exact F|].
      split; [|intros r []]. intros r R_ Fr. destruct I as [[_ Nn]|[E C]]; [exfalso; exact (Nn r R_ Fr)|].
      rewrite E in G. assert (dist2 x p < dist2 (fst st) p).
      { rewrite <- !dist_sqr. apply Rmult_le_0_lt_compat; auto; apply R_sqrt.sqrt_pos. }
      destruct C as [l1 [l2 [El [_ [C1 C2]]]]]. rewrite El in R_. apply in_app_or in R_ as [R_|[<-|R_]].
      * pose proof (C1 r R_ Fr). lra.
      * exact H.
      * pose proof (C2 r R_ Fr). lra.
    + apply Rltb_false in G. destruct I as [[-> _]|[E C]]; [cbn [snd] in G; lra|]. right; split; auto.
      rewrite E in G. destruct C as [l1 [l2 [El [Fq [C1 C2]]]]]. exists l1, (l2 ++ [x]). split; [rewrite El, <- app_assoc; reflexivity|].
      split; auto. split; auto. intros r R_ Fr. apply in_app_or in R_ as [R_|[<-|[]]]; [now apply C2|].
      rewrite <- !dist_sqr. apply Rmult_le_compat; auto; apply R_sqrt.sqrt_pos.
  - apply Rltb_false in F. destruct I as [[-> Nn]|[E C]].
    + left; split; auto. intros r R_. apply in_app_or in R_ as [R_|[<-|[]]]; [now apply Nn|lra].
    + right; split; auto. destruct C as [l1 [l2 [El [Fq [C1 C2]]]]]. exists l1, (l2 ++ [x]). split; [rewrite El, <- app_assoc; reflexivity|].
      split; auto. split; auto. intros r R_ Fr. apply in_app_or in R_ as [R_|[<-|[]]]; [now apply C2|].
      exfalso. unfold p_distance in F. unfold dist2 in Fr. lra.
Qed.

Lemma far_differs (p q : pt) : / 100000 < p_distance q p -> p_eq RNum q p = false.
Proof.
  intros F. destruct (Container_Proofs.p_ne_close q p) as [[E _]|[_ [C1 [C2 _]]]].
  - unfold p_ne in E. now destruct (p_eq RNum q p).
  - exfalso. assert (B : dist2 q p <= 2 * (/ 10000000 * / 10000000)).
    { unfold dist2. assert (Q : forall x : R, Rabs x < / 10000000 -> x * x <= / 10000000 * / 10000000).
      { intros x X. rewrite <- (Rabs_right (x * x)) by (apply Rle_ge, Rle_0_sqr). rewrite Rabs_mult.
        apply Rmult_le_compat; try apply Rabs_pos; lra. }
      pose proof (Q _ C1) as Q1. pose proof (Q _ C2) as Q2.
      assert (T : forall a b c : R, a <= c -> b <= c -> a + b <= 2 * c) by (intros; lra). apply T; assumption. }
    rewrite <- dist_sqr in B. assert (/ 100000 * / 100000 < p_distance q p * p_distance q p) by (apply Rmult_le_0_lt_compat; lra).
    lra.
Qed.

Lemma until_border (inter : list (list rpoint) -> rcell -> list (list rpoint)) c (p : pt) ang l :
  l = concat (inter [cell_createSemiLongLine c p ang] c) -> (forall r, In r l -> p_distance r p < dbl_max) ->
  (cell_createLineUntilBorder inter c p ang = [] /\ forall r, In r l -> ~ / 100000 < p_distance r p) \/
  (exists q, cell_createLineUntilBorder inter c p ang = [p; q] /\ first_crossing l p q).
Proof.
  intros El M. unfold cell_createLineUntilBorder. rewrite fold_concat.
  set (I := inter [cell_createSemiLongLine c p ang] c) in *.
  replace (concat (firstn (coll_size (line_isEmpty RNum) I) I)) with l.
  - destruct (nearer_fold p l [] (p, dbl_max) M (or_introl (conj eq_refl (fun r (H : In r []) => match H with end)))) as [[E Nn]|[_ C]]; cbn [app] in *.
    + left. rewrite E; cbn [fst]. split; auto.
      assert (X : p_eq RNum p p = true).
      { destruct (Container_Proofs.p_ne_close p p) as [[_ Q]|[Q _]].
        - exfalso; apply Q. assert (Z : forall x : R, Rabs (x - x) < / 10000000) by (intros; rewrite Rminus_diag_eq, Rabs_R0 by auto; lra).
          repeat split; apply Z.
        - unfold p_ne in Q. now destruct (p_eq RNum p p). }
      now rewrite X.
    + right. eexists; split; [|exact C]. destruct C as [_ [_ [_ [F _]]]]. rewrite far_differs by exact F. reflexivity.
  - rewrite firstn_coll, El. destruct (forallb (line_isEmpty RNum) I) eqn:E; [|reflexivity].
    rewrite forallb_forall in E. cbn [concat]. clear -E. induction I as [|x I IH]; auto. cbn [concat].
    assert (X : line_isEmpty RNum x = true) by (apply E; now left). destruct x; [|discriminate]. apply IH. intros; apply E; now right.
Qed.
