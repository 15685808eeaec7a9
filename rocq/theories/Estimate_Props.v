(** Theorems about the modified swath count of turned, moved and scaled cells, and how it
    compares to the number of lines (properties C300 to C303). *)
From Coq Require Import List Arith ZArith Lia Bool Reals Lra Psatz Permutation.
From Verif Require Import Outcome ListAux Num Swath_Model Swath_Props Point_Model Angle_Model Angle_Spec Angle_Proofs Angle_Proofs2.
From Verif Require Import Objective_Model Objective_Spec Objective_Proofs Objective_Proofs2 Objective_Props.
From Verif Require Import SwathGen_Model SwathGen_Spec SwathGen_Spec2 SwathGen_Proofs SwathGen_Proofs2 SwathGen_Proofs3 SwathGen_Props SwathGen_Props3 Objective_Props2.
From Verif Require Import Best_Model Best_Props Decomp_Proofs Estimate_Spec.
Import ListNotations.
Open Scope R_scope.

Lemma vec_at_map {A B} (g : A -> B) l i : vec_at (map g l) i = do a <- vec_at l i; Ok (g a).
Proof. unfold vec_at. rewrite nth_error_map. destruct (nth_error l i); reflexivity. Qed.

(** Edges that scale by [k] scale the sums by [k]. *)
Lemma nsm_ring_map (edge : R -> pt -> pt -> R) (g : pt -> pt) (a b k : R) :
  (forall p q, edge b (g p) (g q) = k * edge a p q) -> forall ring (acc : R),
  nsm_ring RNum edge b (k * acc) (map g ring) = do r <- nsm_ring RNum edge a acc ring; Ok (k * r).
Proof.
  intros E ring. unfold nsm_ring. rewrite map_length. generalize (seq 0 (length ring)) as is. induction is as [|i is IH]; intro acc; cbn [foldM]; [reflexivity|].
  rewrite !vec_at_map. destruct (vec_at ring i) as [p| | |]; auto. cbn [bind].
  destruct (vec_at ring (prev_index (length ring) i)) as [q| | |]; auto. cbn [bind].
  rewrite E. replace (nadd RNum (k * acc) (k * edge a p q)) with (k * (nadd RNum acc (edge a p q))) by (simpl; ring). apply IH.
Qed.
Lemma nsm_map (edge : R -> pt -> pt -> R) (g : pt -> pt) (a b k w w' : R) rings :
  (forall p q, edge b (g p) (g q) = k * edge a p q) -> 0 < k -> (w' <= 0 <-> w <= 0) ->
  nsm_cost_points RNum edge b w' (map (map g) rings) = do c <- nsm_cost_points RNum edge a w rings; Ok (k * w / w' * c).
Proof.
  intros E Hk Hw. unfold nsm_cost_points.
  replace (match map (map g) rings with [] => true | _ => false end) with (match rings with [] => true | _ => false end) by (destruct rings; auto).
  replace (nleb RNum w' (nofZ RNum 0)) with (nleb RNum w (nofZ RNum 0)).
  2: { change (Rleb w 0 = Rleb w' 0). destruct (Rleb w 0) eqn:A; symmetry; [apply Rleb_true; apply Rleb_true in A; tauto|apply Rleb_false; apply Rleb_false in A].
       apply Rnot_le_lt. intro. apply Rlt_not_le in A. tauto. }
  destruct (_ || _) eqn:T; cbn [bind]; [f_equal; simpl; ring|].
  assert (W : 0 < w). { apply orb_false_iff in T. destruct T as [_ T]. change (Rleb w 0 = false) in T. apply Rleb_false in T. auto. }
  assert (W' : 0 < w') by (apply Rnot_le_lt; intro; apply Rlt_not_le in W; tauto).
  assert (F : forall l (acc : R), foldM (nsm_ring RNum edge b) (map (map g) l) (k * acc) = do r <- foldM (nsm_ring RNum edge a) l acc; Ok (k * r)).
  { induction l as [|r l IH]; intro acc; cbn [foldM map]; [reflexivity|]. rewrite (nsm_ring_map edge g a b k E).
    destruct (nsm_ring RNum edge a acc r) as [x| | |]; auto. cbn [bind]. apply IH. }
  replace (nofZ RNum 0) with (k * 0 : R) at 1 by (simpl; ring). rewrite F.
  change (nofZ RNum 0) with 0. destruct (foldM (nsm_ring RNum edge a) rings 0) as [x| | |]; auto. cbn [bind]. f_equal. simpl. field. lra.
Qed.

Lemma across_frame a p q : across a p q = Rabs (across_of a p - across_of a q).
Proof. unfold across, across_of. f_equal. ring. Qed.

(** C300.  The estimated number of swaths of a turned and shifted cell at the turned angle is that
    of the cell; it is the same for the opposite angle; and it is the same if cell and width are
    scaled alike. *)
Theorem estimate_moved : forall a w rings t u v k, 0 < k ->
  nsm_cost_points RNum nsm_edge (a + t) w (map (map (rigid t u v)) rings) = nsm_cost_points RNum nsm_edge a w rings /\
  nsm_cost_points RNum nsm_edge (a + PI) w rings = nsm_cost_points RNum nsm_edge a w rings /\
  nsm_cost_points RNum nsm_edge a (k * w) (map (map (zoom k)) rings) = nsm_cost_points RNum nsm_edge a w rings.
Proof.
  intros a w rings t u v k Hk.
  assert (Q : forall (o : outcome R) x, (0 < w -> x = 1) -> (w <= 0 -> o = Ok 0) -> (do c <- o; Ok (x * c)) = o).
  { intros o x H1 H2. destruct (Rle_dec w 0) as [W|W]; [rewrite H2 by auto; simpl; f_equal; ring|].
    rewrite H1 by lra. destruct o; auto. simpl. f_equal. ring. }
  split; [|split].
  - rewrite (nsm_map nsm_edge (rigid t u v) a (a + t) 1 w w).
    + apply Q; [intro; field; lra|apply nsm_cost_zero_width].
    + intros p q. rewrite !edge_across, !across_frame, !rigid_across, Rmult_1_l. f_equal. ring.
    + lra.
    + tauto.
  - pose proof (nsm_map nsm_edge (fun p => p) a (a + PI) 1 w w rings) as H.
    rewrite (map_ext _ (fun r => r)), map_id in H by (intro; apply map_id). rewrite H.
    + apply Q; [intro; field; lra|apply nsm_cost_zero_width].
    + intros p q. rewrite !edge_across, !across_frame, !across_opp, Rmult_1_l, <- (Rabs_Ropp (across_of a q - across_of a p)). f_equal. ring.
    + lra.
    + tauto.
  - rewrite (nsm_map nsm_edge (zoom k) a a k w (k * w)).
    + apply Q; [intro; field; split; nra|apply nsm_cost_zero_width].
    + intros p q. rewrite !edge_across, !across_frame. rewrite <- (Rabs_right k) at 3 by lra. rewrite <- Rabs_mult. f_equal.
      unfold across_of, zoom. cbn [px py]. ring.
    + auto.
    + split; intro; nra.
Qed.
Print Assumptions estimate_moved.

Example estimate_moved_ex : nsm_cost_points RNum nsm_edge (0 + 1) 1 (map (map (rigid 1 5 7)) [unit_square]) = Ok 1.
Proof. rewrite (proj1 (estimate_moved 0 1 [unit_square] 1 5 7 1 Rlt_0_1)). exact nsm_cost_example. Qed.

(** Sum of the differences of neighbours in a list. *)
Fixpoint tv (l : list R) : R := match l with a :: ((b :: _) as t) => Rabs (b - a) + tv t | _ => 0 end.
Lemma border_tv a ring : border_across a ring = tv (map (across_of a) ring).
Proof.
  unfold border_across. induction ring as [|p ring IH]; [reflexivity|]. destruct ring as [|q ring]; [reflexivity|].
  cbn [ring_edges map rsum fold_right tv fst snd] in *. rewrite across_frame, Rabs_minus_sym. f_equal. exact IH.
Qed.
Lemma tv_split l x r : tv (l ++ x :: r) = tv (l ++ [x]) + tv (x :: r).
Proof.
  induction l as [|a l IH]; [cbn [app tv]; ring|]. destruct l as [|b l].
  - cbn [app tv] in *. destruct r; ring.
  - cbn [app tv] in *. rewrite IH. ring.
Qed.
Lemma tv_nonneg l : 0 <= tv l.
Proof.
  induction l as [|a l IH]; [cbn; lra|]. destruct l as [|b l]; [cbn; lra|]. cbn [tv] in *. pose proof (Rabs_pos (b - a)). lra.
Qed.
Lemma tv_ends l y : forall x, Rabs (y - x) <= tv (x :: l ++ [y]).
Proof.
  induction l as [|a l IH]; intro x; [cbn; lra|]. cbn [app tv] in *. specialize (IH a).
  pose proof (Rabs_triang (y - a) (a - x)). replace (y - a + (a - x)) with (y - x) in * by ring. lra.
Qed.
Lemma tv_from_start l : forall x y, In y l -> Rabs (y - x) <= tv (x :: l).
Proof.
  intros x y H. apply in_split in H. destruct H as (l1 & l2 & ->).
  rewrite (tv_split (x :: l1) y l2 : tv (x :: l1 ++ y :: l2) = _). pose proof (tv_ends l1 y x). pose proof (tv_nonneg (y :: l2)). cbn [app] in *. lra.
Qed.
(** A list that comes back to its start goes at least twice from any value to any other. *)
Lemma tv_closed l p q : comes_back l -> In p l -> In q l -> 2 * (q - p) <= tv l.
Proof.
  intros (a & m & [-> | ->]) Hp Hq.
  { destruct Hp as [<-|[]]. destruct Hq as [<-|[]]. cbn. lra. }
  assert (S1 : forall x y m1 m2, a :: m ++ [a] = m1 ++ x :: m2 -> In y (m1 ++ [x]) -> 2 * Rabs (x - y) <= tv (a :: m ++ [a])).
  { intros x y m1 m2 E Hy.
    assert (L : exists m3, x :: m2 = m3 ++ [a]).
    { clear - E. assert (Q : last (a :: m ++ [a]) 0 = a) by (change (a :: m ++ [a]) with ((a :: m) ++ [a]); apply last_last).
      destruct (@exists_last _ (x :: m2)) as (r & z & H); [discriminate|]. exists r. rewrite H. f_equal. f_equal. rewrite E, H, app_assoc, last_last in Q. auto. }
    destruct L as [m3 L].
    rewrite E, tv_split. destruct m1 as [|b m1].
    - cbn [app] in Hy. destruct Hy as [<-|[]]. rewrite Rminus_eq_0, Rabs_R0. pose proof (tv_nonneg ([] ++ [x])). pose proof (tv_nonneg (x :: m2)). lra.
    - cbn [app] in E. injection E as <- E.
      assert (B : Rabs (a - x) <= tv (x :: m2)).
      { rewrite L. destruct m3 as [|z m3]; cbn [app] in L; injection L as -> L'.
        - rewrite Rminus_eq_0, Rabs_R0. apply tv_nonneg.
        - apply tv_ends. }
      apply in_app_or in Hy. destruct Hy as [Hy|[<-|[]]].
      + cbn [app]. destruct Hy as [<-|Hy].
        * pose proof (tv_ends m1 x a). rewrite Rabs_minus_sym in B. lra.
        * apply in_split in Hy. destruct Hy as (n1 & n2 & ->).
          replace ((n1 ++ y :: n2) ++ [x]) with (n1 ++ y :: (n2 ++ [x])) by (rewrite <- app_assoc; reflexivity).
          rewrite (tv_split (a :: n1) y (n2 ++ [x]) : tv (a :: n1 ++ y :: n2 ++ [x]) = _).
          pose proof (tv_ends n1 y a). pose proof (tv_ends n2 x y). cbn [app] in *.
          pose proof (Rabs_triang (y - a) (a - x)) as T. replace (y - a + (a - x)) with (y - x) in T by ring. rewrite (Rabs_minus_sym y x) in T. lra.
      + rewrite Rminus_eq_0, Rabs_R0. pose proof (tv_nonneg ((a :: m1) ++ [x])). pose proof (tv_nonneg (x :: m2)). lra. }
  apply in_split in Hq. destruct Hq as (m1 & m2 & E). 
  assert (C : In p (m1 ++ [q]) \/ In p m2).
  { rewrite E in Hp. apply in_app_or in Hp. destruct Hp as [H|[H|H]]; [left; apply in_or_app; auto|left; subst; apply in_or_app; right; left; auto|auto]. }
  destruct C as [C|C].
  - pose proof (S1 q p m1 m2 E C). pose proof (Rle_abs (q - p)). lra.
  - apply in_split in C. destruct C as (n1 & n2 & ->).
    pose proof (S1 p q (m1 ++ q :: n1) n2) as H. rewrite <- app_assoc in H. cbn [app] in H. specialize (H E).
    rewrite Rabs_minus_sym in H. pose proof (Rle_abs (q - p)).
    assert (In q ((m1 ++ q :: n1) ++ [p])) by (apply in_or_app; left; apply in_or_app; right; left; auto). specialize (H H1). lra.
Qed.

Lemma comes_back_map {A B} (f : A -> B) l : comes_back l -> comes_back (map f l).
Proof.
  intros (a & m & [-> | ->]); exists (f a), (map f m); [left; reflexivity|right]. cbn [map]. rewrite map_app. reflexivity.
Qed.
Lemma comes_back_ends {A} (l : list A) d : comes_back l -> hd d l = last l d.
Proof. intros (a & m & [-> | ->]); [reflexivity|]. cbn [hd]. change (a :: m ++ [a]) with ((a :: m) ++ [a]). symmetry. apply last_last. Qed.
Lemma rsum_ge_one {A} (f : A -> R) l x : (forall y, In y l -> 0 <= f y) -> In x l -> f x <= rsum (map f l).
Proof.
  intros H. induction l as [|y l IH]; [intros []|]; intros [->|I]; cbn [map rsum fold_right].
  - assert (0 <= rsum (map f l)); [|unfold rsum in *; lra]. clear - H. induction l as [|z l IH]; [cbn; lra|]. cbn [map rsum fold_right].
    pose proof (H z (or_intror (or_introl eq_refl))). assert (0 <= rsum (map f l)); [|unfold rsum in *; lra]. apply IH. intros y' [->|K]; apply H; [left|right; right]; auto.
  - specialize (IH (fun y' K => H y' (or_intror K)) I). pose proof (H y (or_introl eq_refl)). unfold rsum in *. lra.
Qed.

Lemma border_nonneg a r : 0 <= border_across a r.
Proof. rewrite border_tv. apply tv_nonneg. Qed.

(** C301.  The estimate is never below the height of the cell in widths, and the number of lines
    (without overlap) is less than the estimate plus one; for every cell whose highest and lowest
    point lie on one closed ring. *)
Theorem estimate_bounds_lines : forall a w rings r x0 x1 y0 y1, 0 < w ->
  (forall q, In q rings -> q <> [] /\ (Z.of_nat (length q) <= 2 ^ 64)%Z) -> In r rings -> comes_back r ->
  extent (across_of a) r y0 y1 -> extent (across_of a) (concat rings) y0 y1 -> extent (along a) (concat rings) x0 x1 ->
  exists c lines, nsm_cost_points RNum nsm_edge a w rings = Ok c /\
    (forall fuel, (length lines <= fuel)%nat -> sg_lines fuel false a w rings = Ok lines) /\
    y1 - y0 <= c * w /\ INR (length lines) < c + 1.
Proof.
  intros a w rings r x0 x1 y0 y1 Hw Hq Hr Hc HR HY HX.
  destruct (line_count a w rings x0 x1 y0 y1 Hw HX HY false) as (lines & EL & L1 & L2 & _).
  assert (Hne : rings <> []) by (intros ->; destruct Hr).
  pose proof (nsm_cost_exact a w rings (P2 0 0) Hne Hw Hq) as EC.
  match type of EC with _ = Ok ?x => set (c := x) in * end.
  assert (B : y1 - y0 <= c * w).
  { unfold c. set (f := fun r0 : list pt => _) in *.
    assert (Hf : forall q, border_across a q <= f q).
    { intro q. unfold f. pose proof (Rabs_pos) as P. assert (0 <= across a (nth (Z.to_nat ((2 ^ 64 - 1) mod Z.of_nat (length q))) q (P2 0 0)) (nth 0 q (P2 0 0))) by (unfold across; apply P). lra. }
    assert (S : f r <= rsum (map f rings)).
    { apply rsum_ge_one; auto. intros q _. pose proof (Hf q). pose proof (border_nonneg a q). lra. }
    assert (T : 2 * (y1 - y0) <= border_across a r).
    { rewrite border_tv. destruct HR as ((p & Ip & Ep) & (q & Iq & Eq) & _). rewrite <- Ep, <- Eq.
      apply tv_closed; [apply comes_back_map; auto|apply in_map; auto|apply in_map; auto]. }
    pose proof (Hf r). replace (rsum (map f rings) / (2 * w) * w) with (rsum (map f rings) / 2) by (field; lra). lra. }
  exists c, lines. split; auto. split; auto. split; auto.
  pose proof (box_ok _ _ _ _ _ _ HX HY) as [_ B2].
  assert (0 <= c) by nra.
  destruct (Req_dec y0 y1) as [E|E].
  - rewrite (L2 eq_refl E). simpl. lra.
  - destruct (L1 eq_refl ltac:(lra)) as [L3 _]. nra.
Qed.
Print Assumptions estimate_bounds_lines.

Lemma unit_extent : extent (along 0) (concat [unit_square]) 0 1 /\ extent (across_of 0) unit_square 0 1.
Proof.
  unfold extent, along, across_of, unit_square. rewrite cos_0, sin_0. split.
  - split; [exists (P2 0 0); split; [left; auto|cbn; ring]|]. split; [exists (P2 1 0); split; [right; left; auto|cbn; ring]|].
    intros p H. cbn in H. repeat destruct H as [<-|H]; cbn; try lra; destruct H.
  - split; [exists (P2 0 0); split; [left; auto|cbn; ring]|]. split; [exists (P2 1 1); split; [right; right; left; auto|cbn; ring]|].
    intros p H. cbn in H. repeat destruct H as [<-|H]; cbn; try lra; destruct H.
Qed.
Example estimate_bounds_lines_ex : 0 < 1 /\ (forall q, In q [unit_square] -> q <> [] /\ (Z.of_nat (length q) <= 2 ^ 64)%Z) /\ comes_back unit_square /\
  extent (across_of 0) unit_square 0 1 /\ extent (across_of 0) (concat [unit_square]) 0 1 /\ extent (along 0) (concat [unit_square]) 0 1.
Proof.
  destruct unit_extent as [A B]. split; [lra|]. split; [intros q [<-|[]]; split; [discriminate|cbn; lia]|].
  split; [exists (P2 0 0), [P2 1 0; P2 1 1; P2 0 1]; right; reflexivity|]. split; [exact B|]. split; [|exact A].
  cbn [concat]. rewrite app_nil_r. exact B.
Qed.

Lemma tv_falling l : falling l -> tv l = hd 0 l - last l 0.
Proof.
  induction l as [|a l IH]; intro H; [cbn; ring|]. destruct l as [|b l]; [cbn; ring|]. destruct H as [H1 H2]. specialize (IH H2).
  change (tv (a :: b :: l)) with (Rabs (b - a) + tv (b :: l)). rewrite IH, Rabs_left1 by lra.
  change (last (a :: b :: l) 0) with (last (b :: l) 0). cbn [hd]. ring.
Qed.
Lemma tv_rising l : rising l -> tv l = last l 0 - hd 0 l.
Proof.
  induction l as [|a l IH]; intro H; [cbn; ring|]. destruct l as [|b l]; [cbn; ring|]. destruct H as [H1 H2]. specialize (IH H2).
  change (tv (a :: b :: l)) with (Rabs (b - a) + tv (b :: l)). rewrite IH, Rabs_right by lra.
  change (last (a :: b :: l) 0) with (last (b :: l) 0). cbn [hd]. ring.
Qed.
Lemma hd_app_snoc (l : list R) p r : hd 0 (l ++ p :: r) = hd 0 (l ++ [p]).
Proof. destruct l; reflexivity. Qed.
Lemma last_app_cons (l : list R) p r : last (l ++ p :: r) 0 = last (p :: r) 0.
Proof. induction l as [|a l IH]; [reflexivity|]. cbn [app]. rewrite <- IH. destruct (l ++ p :: r) eqn:E; [destruct l; discriminate|]. reflexivity. Qed.

Lemma tv_once l lo hi : comes_back l -> once_up_and_down l -> In lo l -> In hi l -> (forall x, In x l -> lo <= x <= hi) ->
  tv l = 2 * (hi - lo).
Proof.
  intros Hc H Hlo Hhi Hb. pose proof (comes_back_ends l 0 Hc) as E. pose proof (tv_closed l lo hi Hc Hlo Hhi) as Ge.
  destruct H as [(l1 & p & l2 & q & l3 & -> & F1 & F2 & F3)|(l1 & p & l2 & q & l3 & -> & F1 & F2 & F3)];
    rewrite tv_split, (tv_split (p :: l2) q l3 : tv (p :: l2 ++ q :: l3) = _) in *;
    rewrite hd_app_snoc, last_app_cons, (last_app_cons (p :: l2) q l3 : last (p :: l2 ++ q :: l3) 0 = _) in E;
    pose proof (Hb p ltac:(apply in_or_app; right; left; auto)) as Bp;
    pose proof (Hb q ltac:(apply in_or_app; right; right; apply in_or_app; right; left; auto)) as Bq.
  - apply tv_falling in F1. change ((p :: l2) ++ [q]) with (p :: l2 ++ [q]) in *. apply tv_rising in F2. apply tv_falling in F3. rewrite last_last in F1.
    rewrite (last_last (p :: l2) q 0 : last (p :: l2 ++ [q]) 0 = q) in F2. cbn [hd] in F2, F3. lra.
  - apply tv_rising in F1. change ((p :: l2) ++ [q]) with (p :: l2 ++ [q]) in *. apply tv_falling in F2. apply tv_rising in F3. rewrite last_last in F1.
    rewrite (last_last (p :: l2) q 0 : last (p :: l2 ++ [q]) 0 = q) in F2. cbn [hd] in F2, F3. lra.
Qed.

(** C302.  For a closed ring that rises once and falls once across the angle, and whose size is
    one of those counted right (C97), the estimate is the height of the cell in widths, and the
    number of lines (without overlap) is the estimate rounded up. *)
Theorem estimate_exact : forall a w r x0 x1 y0 y1, 0 < w -> comes_back r -> once_up_and_down (map (across_of a) r) ->
  ((Z.of_nat (length r) | 2 ^ 64) \/ (Z.of_nat (length r) | 2 ^ 64 - 1))%Z ->
  extent (across_of a) r y0 y1 -> extent (along a) r x0 x1 ->
  exists c lines, nsm_cost_points RNum nsm_edge a w [r] = Ok c /\ c * w = y1 - y0 /\
    (forall fuel, (length lines <= fuel)%nat -> sg_lines fuel false a w [r] = Ok lines) /\
    c <= INR (length lines) < c + 1.
Proof.
  intros a w r x0 x1 y0 y1 Hw Hc Ho Hs HY HX.
  assert (Hne : r <> []) by (destruct Hc as (x & m & [-> | ->]); discriminate).
  assert (HY' : extent (across_of a) (concat [r]) y0 y1) by (cbn [concat]; rewrite app_nil_r; auto).
  assert (HX' : extent (along a) (concat [r]) x0 x1) by (cbn [concat]; rewrite app_nil_r; auto).
  destruct (line_count a w [r] x0 x1 y0 y1 Hw HX' HY' false) as (lines & EL & L1 & L2 & _).
  exists ((y1 - y0) / w), lines. split; [|split; [field; lra|split; auto]].
  - rewrite (nsm_cost_good_sizes a w [r] (P2 0 0)); [|discriminate|auto|].
    + cbn [map rsum fold_right]. rewrite border_tv. destruct HY as ((p & Ip & Ep) & (q & Iq & Eq) & B).
      rewrite (tv_once _ y0 y1); auto.
      * apply (f_equal Ok). refine (_ : @eq R _ _). field. lra.
      * apply comes_back_map; auto.
      * rewrite <- Ep. apply in_map. auto.
      * rewrite <- Eq. apply in_map. auto.
      * intros x Hx. apply in_map_iff in Hx. destruct Hx as (z & <- & Hz). auto.
    + intros q [<-|[]]. split; auto. split; auto. pose proof (comes_back_ends r (P2 0 0) Hc) as E. rewrite <- E. destruct r; [congruence|reflexivity].
  - pose proof (box_ok _ _ _ _ _ _ HX' HY') as [_ B2]. destruct (Req_dec y0 y1) as [E|E].
    + rewrite (L2 eq_refl E), E. unfold Rdiv. rewrite Rminus_eq_0, Rmult_0_l. simpl. lra.
    + destruct (L1 eq_refl ltac:(lra)) as [L3 L4]. assert (W : (y1 - y0) / w * w = y1 - y0) by (field; lra). split; nra.
Qed.
Print Assumptions estimate_exact.

Example estimate_exact_ex : 0 < 1 /\ comes_back unit_square /\ once_up_and_down (map (across_of 0) unit_square) /\
  ((Z.of_nat (length unit_square) | 2 ^ 64) \/ (Z.of_nat (length unit_square) | 2 ^ 64 - 1))%Z /\
  extent (across_of 0) unit_square 0 1 /\ extent (along 0) unit_square 0 1.
Proof.
  destruct unit_extent as [A B]. cbn [concat] in A. rewrite app_nil_r in A. split; [lra|].
  split; [exists (P2 0 0), [P2 1 0; P2 1 1; P2 0 1]; right; reflexivity|]. split; [|split; [right; exists 3689348814741910323%Z; reflexivity|auto]].
  left. cbn [unit_square map]. assert (V : forall x y, across_of 0 (P2 x y) = y) by (intros; unfold across_of; rewrite cos_0, sin_0; cbn; ring). rewrite !V.
  exists [0], 0, [], 1, [1; 0]. split; [reflexivity|]. cbn. repeat split; lra.
Qed.

(** C303.  With this objective and a step that divides half a turn, the best angle is always below
    half a turn: the second half of the angles is never chosen. *)
Theorem estimate_best_half : forall inside wkt cost_swaths sched fuel (g : bruteforce) w poly (h : nat),
  (0 < h)%nat -> INR h * bf_stepAngle g = PI -> INR (2 * h) < 2147483648 -> (forall n, Permutation (sched n) (seq 0 n)) ->
  0 < w -> poly <> [] -> (forall q, In q poly -> q <> [] /\ (Z.of_nat (length q) <= 2 ^ 64)%Z) ->
  exists b c, g_computeBestAngle inside wkt true (fun a w p => nsm_cost_points RNum nsm_edge a w p) cost_swaths sched fuel g w poly = Ok b /\
    0 <= b < PI /\ nsm_cost_points RNum nsm_edge b w poly = Ok c /\
    forall i : nat, exists x, nsm_cost_points RNum nsm_edge (INR i * bf_stepAngle g) w poly = Ok x /\ c <= x.
Proof.
  intros inside wkt cost_swaths sched fuel g w poly h Hh Hst Hr HP Hw Hne Hq. set (step := bf_stepAngle g) in *.
  pose proof PI_RGT_0 as Pi. assert (M1 : 1 <= INR h) by (apply (le_INR 1 h) in Hh; exact Hh).
  assert (Hs : 0 < step <= 2 * PI) by (split; nra).
  assert (H2 : INR (2 * h) = 2 * INR h) by (rewrite mult_INR; reflexivity).
  assert (Hrr : 2 * PI / step < 2147483648) by (rewrite <- Hst; replace (2 * (INR h * step) / step) with (2 * INR h) by (field; lra); lra).
  assert (OG : forall i : nat, INR (i + 1) * step <= 2 * PI <-> (i < 2 * h)%nat).
  { intro i. rewrite <- Hst. replace (2 * (INR h * step)) with (INR (2 * h) * step) by (rewrite H2; ring). split; intro H.
    - apply Rmult_le_reg_r in H; [|lra]. apply INR_le in H. lia.
    - apply Rmult_le_compat_r; [lra|]. apply le_INR. lia. }
  assert (D : forall a, exists x, nsm_cost_points RNum nsm_edge a w poly = Ok x).
  { intro a. rewrite (nsm_cost_exact a w poly (P2 0 0) Hne Hw Hq). eauto. }
  set (c := fun a => match nsm_cost_points RNum nsm_edge a w poly with Ok x => x | _ => 0 end).
  assert (C : forall a, nsm_cost_points RNum nsm_edge a w poly = Ok (c a)) by (intro a; unfold c; destruct (D a) as [x ->]; reflexivity).
  assert (Op : forall a, c (a + PI) = c a).
  { intro a. pose proof (proj1 (proj2 (estimate_moved a w poly 0 0 0 1 Rlt_0_1))) as E. rewrite !C in E. injection E as E. exact E. }
  destruct (brute_force_best (fun a => nsm_cost_points RNum nsm_edge a w poly) c step sched Hs Hrr HP) as (k & K1 & K2 & K3 & K4).
  { intros i _. apply C. }
  apply OG in K1.
  assert (K : (k < h)%nat).
  { destruct (le_lt_dec h k) as [L|L]; auto. exfalso. specialize (K4 (k - h)%nat ltac:(lia)).
    replace (INR k * step) with (INR (k - h) * step + PI) in K4 by (rewrite minus_INR by lia; rewrite <- Hst; ring). rewrite Op in K4. lra. }
  exists (INR k * step), (c (INR k * step)). split; [exact K2|]. split; [|split; [apply C|]].
  - pose proof (pos_INR k). split; [nra|]. apply lt_INR in K. rewrite <- Hst. apply Rmult_lt_compat_r; lra.
  - intro i. exists (c (INR i * step)). split; [apply C|].
    assert (Red : forall z j : nat, c (INR (j + z * h) * step) = c (INR j * step)).
    { induction z as [|z IH]; intro j; [f_equal; f_equal; f_equal; lia|].
      replace (INR (j + S z * h) * step) with (INR (j + z * h) * step + PI); [rewrite Op; apply IH|].
      replace (j + S z * h)%nat with (j + z * h + h)%nat by lia. rewrite (plus_INR (j + z * h) h), <- Hst. ring. }
    pose proof (Nat.div_mod i h ltac:(lia)) as E. pose proof (Nat.mod_upper_bound i h ltac:(lia)) as U.
    replace i with (i mod h + (i / h) * h)%nat by lia. rewrite Red. apply K3, OG. lia.
Qed.
Print Assumptions estimate_best_half.

Example estimate_best_half_ex : exists g : bruteforce, (0 < 2)%nat /\ INR 2 * bf_stepAngle g = PI /\ INR (2 * 2) < 2147483648 /\ [unit_square] <> [].
Proof. exists (mkBruteForce false (PI / 2)). simpl. split; [lia|]. split; [field|]. split; [lra|]. discriminate. Qed.
