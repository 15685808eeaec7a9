(** Theorems about the objective functions (properties C30 - C34, C76, C95 - C99),
    each with its assumptions and an example. *)
From Coq Require Import List Arith ZArith Lia Bool Reals Lra Psatz Permutation.
From Verif Require Import Outcome ListAux Num Swath_Model Route_Model Route_Spec Route_Proofs.
From Verif Require Import Point_Model Angle_Model Angle_Spec Angle_Proofs Angle_Proofs2.
From Verif Require Import Objective_Model Objective_Spec Objective_Proofs Objective_Proofs2.
Import ListNotations.
Open Scope R_scope.

Section RouteCost.
  Context {P W : Type}.
  Variable d : P.
  Variable angle dist : P -> P -> R.
  Notation cost r := (rp_cost_route RNum d angle dist (direct_cost4 RNum dist) r).

  Lemma run_good (h : list (rop P W)) r : Forall rop_long h -> r_run h = Ok r -> shape r /\ Forall good (r_swaths r) /\
    line_of r = flat_map rop_line h.
  Proof.
    intros HL E. destruct (run_ok h) as (r' & E' & S & L & C & D). assert (r' = r) by congruence. subst r'.
    split; auto. split; auto.
    assert (HS : Forall rop_solid h).
    { eapply Forall_impl; [|exact HL]. intros o Ho. destruct o; simpl in *; auto.
      - destruct Ho as [H1 H2]. split; auto. intros x Hx. specialize (H2 x Hx). destruct (sw_path x); simpl in H2; [lia|discriminate].
      - destruct Ho as [H1 H2]. split; auto. intros x Hx. specialize (H2 x Hx). destruct (sw_path x); simpl in H2; [lia|discriminate].
      - destruct (sw_path s); simpl in Ho; [lia|discriminate]. }
    specialize (D HS). rewrite Forall_forall in *. intros g Hg. split; [apply D; auto|].
    apply Forall_forall. intros x Hx. assert (Hin : In x (flat_map rop_swaths h)).
    { rewrite <- C. apply in_concat. eauto. }
    apply in_flat_map in Hin. destruct Hin as (o & Ho & Hxo). specialize (HL o Ho).
    unfold long. destruct o; simpl in *; try tauto; try (apply HL; auto). destruct Hxo as [<-|[]]. auto.
  Qed.

  (** C30.  For every sequence of building calls, when the inner connections have
      points the cost is the length of the driven line. *)
  Theorem route_cost_is_length (h : list (rop P W)) r : Forall rop_long h -> r_run h = Ok r -> inner_connected r ->
    cost r = Ok (len dist (flat_map rop_line h)) /\ r_asLineString r = Ok (flat_map rop_line h).
  Proof.
    intros HL E HC. destruct (run_good h r HL E) as (S & G & L).
    destruct (route_cost_exact d angle dist r S G) as (c & Ec & EL). rewrite missed_zero in EL by auto.
    rewrite <- L. split; [|apply asLineString_ok]. rewrite Ec. f_equal. lra.
  Qed.

  (** C95.  In general the cost falls short of the length by exactly the jumps
      between consecutive groups without connection points. *)
  Theorem route_cost_deficit (h : list (rop P W)) r : Forall rop_long h -> r_run h = Ok r ->
    exists c, cost r = Ok c /\ len dist (flat_map rop_line h) = c + missed dist d (r_swaths r) (r_conns r) /\
      ((forall a b, 0 <= dist a b) -> c <= len dist (flat_map rop_line h)).
  Proof.
    intros HL E. destruct (run_good h r HL E) as (S & G & L).
    destruct (route_cost_exact d angle dist r S G) as (c & Ec & EL). exists c. rewrite <- L. split; auto. split; auto.
    intro HD. pose proof (missed_pos d dist r HD). lra.
  Qed.
End RouteCost.
Print Assumptions route_cost_is_length.
Print Assumptions route_cost_deficit.

(** Points on a line of whole numbers. *)
Definition zdist (a b : Z) : R := Rabs (IZR a - IZR b).
Definition sw_of (l : list Z) : swath Z nat := mkSwath Z nat 0%Z l 1%nat true MAINLAND.
Definition ex_connected : list (rop Z nat) :=
  [RAddPoint 0%Z; RAddSwath (sw_of [1; 5]%Z); RAddPoints [6; 7]%Z; RAddSwaths [sw_of [8; 9]%Z; sw_of [12; 10]%Z]].
Definition ex_gap : list (rop Z nat) :=
  [RAddSwath (sw_of [1; 5]%Z); RAddConnection; RAddSwath (sw_of [8; 9]%Z)].

Example route_cost_example : Forall rop_long ex_connected /\
  exists r, r_run ex_connected = Ok r /\ inner_connected r /\ length (r_swaths r) = 2%nat.
Proof.
  split.
  - repeat constructor; simpl; try lia; try discriminate. intros x [<-|[<-|[]]]; simpl; lia.
  - eexists. split; [vm_compute; reflexivity|]. split; [|reflexivity].
    intros i c Hi Hc. simpl in Hi. assert (i = 1%nat) by lia. subst. simpl in Hc. injection Hc as <-. discriminate.
Qed.

(** C31, refuted: with an empty connection between two swaths the cost (5) is
    smaller than the length of the driven line (8). *)
Theorem route_cost_misses_jump_refuted : exists (h : list (rop Z nat)) r c,
  Forall rop_long h /\ r_run h = Ok r /\
  rp_cost_route RNum 0%Z (fun _ _ => 0) zdist (direct_cost4 RNum zdist) r = Ok c /\
  c < len zdist (flat_map rop_line h).
Proof.
  assert (HL : Forall rop_long ex_gap) by (repeat constructor; simpl; lia).
  destruct (run_ok ex_gap) as (r & E & _).
  destruct (route_cost_deficit 0%Z (fun _ _ => 0) zdist ex_gap r HL E) as (c & Ec & EL & _).
  exists ex_gap, r, c. split; auto. split; auto. split; auto. rewrite EL. vm_compute in E. injection E as <-.
  simpl. unfold zdist. rewrite Rabs_left; simpl; lra.
Qed.
Print Assumptions route_cost_misses_jump_refuted.

Section Overlaps.
  Context {CS S : Type}.
  Variable cs_area : CS -> R.
  Variable covered : CS -> S -> CS.
  Variable intersects : CS -> CS -> bool.
  Variable inter : CS -> CS -> CS.
  (** Area common to two covered areas. *)
  Notation common a b := (if intersects a b then cs_area (inter a b) else 0).
  Notation cost poly l := (ov_cost RNum cs_area covered intersects inter poly l).
  Notation total poly l := (rsum (map (fun p => common (covered poly (fst p)) (covered poly (snd p))) (pairs l))).

  (** C96.  What is computed: the pairs (i, j), i < j, of positions counted from the
      last swath with i + j < n. *)
  Theorem overlap_cost_exact poly (l : list S) (s0 : S) :
    cost poly l = Ok (rsum (map (fun p =>
        common (covered poly (nth (fst p) (rev l) s0)) (covered poly (nth (snd p) (rev l) s0)))
      (filter (fun p => fst p + snd p <? length l)%nat (pairs (seq 0 (length l))))) / cs_area poly).
  Proof.
    rewrite ov_exact. f_equal. f_equal. apply rsum_ext. intros [i j] H. apply filter_In in H. destruct H as [H _].
    assert (Hij : (i < length l /\ j < length l)%nat).
    { rewrite pairs_seq in H. apply in_flat_map in H. destruct H as (k & Hk & H). apply in_map_iff in H.
      destruct H as (m & Em & Hm). injection Em as -> ->. apply in_seq in Hk. apply in_seq in Hm. lia. }
    destruct Hij as [Hi Hj]. cbn [fst snd]. unfold ov.
    rewrite !(nth_indep _ poly (covered poly s0)) by (rewrite map_length, rev_length; auto). rewrite !map_nth. auto.
  Qed.

  (** Correct for at most two swaths; too small in general. *)
  Theorem overlap_cost_bound poly (l : list S) :
    (forall a b, common a b = common b a) -> 0 < cs_area poly ->
    ((length l <= 2)%nat -> cost poly l = Ok (total poly l / cs_area poly)) /\
    ((forall a b, 0 <= common a b) -> exists c, cost poly l = Ok c /\ c <= total poly l / cs_area poly).
  Proof.
    intros Hs HA.
    pose proof (ov_all cs_area covered intersects inter poly l Hs) as H. unfold ov in H.
    pose proof (ov_exact cs_area covered intersects inter poly l) as E. unfold ov in E. split.
    - intro Hl. rewrite E. f_equal. f_equal. rewrite <- H.
      destruct l as [|x [|y [|z l]]]; simpl in Hl; try lia; reflexivity.
    - intro HP. eexists. split; [exact E|].
      apply Rmult_le_compat_r; [left; apply Rinv_0_lt_compat; auto|]. rewrite <- H.
      set (f := fun p : nat * nat => _).
      rewrite <- (rsum_filter f (fun p => fst p + snd p <? length l)%nat (pairs (seq 0 (length l)))).
      assert (0 <= rsum (map f (filter (fun a => negb (fst a + snd a <? length l)%nat) (pairs (seq 0 (length l)))))).
      { apply rsum_nonneg. intros x Hx. apply in_map_iff in Hx. destruct Hx as (p & <- & _). apply HP. }
      unfold f in *. lra.
  Qed.
End Overlaps.
Print Assumptions overlap_cost_exact.
Print Assumptions overlap_cost_bound.

(** Areas as sets of unit squares. *)
Definition sq_area (l : list nat) : R := INR (length l).
Definition sq_inter (a b : list nat) : list nat := filter (fun x => existsb (Nat.eqb x) b) a.
Definition sq_hit (a b : list nat) : bool := match sq_inter a b with [] => false | _ => true end.

Example overlap_example :
  ov_cost RNum sq_area (fun _ s => s) sq_hit sq_inter [0; 1; 2; 3]%nat [[0; 1]; [1; 2]]%nat = Ok (1 / 4).
Proof.
  rewrite (overlap_cost_exact sq_area (fun _ s => s) sq_hit sq_inter [0; 1; 2; 3]%nat [[0; 1]; [1; 2]]%nat []).
  f_equal. simpl. unfold sq_area. simpl. lra.
Qed.

(** C32, refuted from three swaths on: two of three swaths share a square, and the
    cost is 0. *)
Theorem overlap_pairs_refuted : exists (poly : list nat) l,
  ov_cost RNum sq_area (fun _ s => s) sq_hit sq_inter poly l = Ok 0 /\
  0 < rsum (map (fun p => if sq_hit (fst p) (snd p) then sq_area (sq_inter (fst p) (snd p)) else 0) (pairs l)) / sq_area poly.
Proof.
  exists [0; 1; 2; 3]%nat, [[0; 1]; [1; 2]; [3]]%nat. split.
  - rewrite (overlap_cost_exact sq_area (fun _ s => s) sq_hit sq_inter _ _ []). f_equal. simpl. unfold sq_area. simpl. lra.
  - simpl. unfold sq_area. simpl. lra.
Qed.
Print Assumptions overlap_pairs_refuted.

(** C33 / C97.  The modified swath count. *)
Lemma edge_across ang (p q : pt) : nsm_edge ang p q = across ang q p.
Proof.
  unfold nsm_edge, across. rewrite <- (Rabs_right (p_distance p q)) at 1 by (apply Rle_ge, sqrt_pos).
  rewrite <- Rabs_mult. f_equal. rewrite sin_minus.
  assert (E : p_distance p q = hyp (px (p_sub RNum p q)) (py (p_sub RNum p q))) by reflexivity.
  rewrite E. destruct (angle_polar (p_sub RNum p q)) as [X Y].
  set (h := hyp _ _) in *. set (t := angleFromPoint _) in *.
  transitivity (sin ang * (h * cos t) - cos ang * (h * sin t)); [ring|]. rewrite X, Y. simpl. ring.
Qed.

(** Sum over the edges of a ring of their extents across [ang]. *)
Definition border_across (ang : R) (ring : list pt) : R :=
  rsum (map (fun e => across ang (fst e) (snd e)) (ring_edges ring)).

Theorem nsm_cost_exact ang w (rings : list (list pt)) (d : pt) :
  rings <> [] -> 0 < w -> (forall r, In r rings -> r <> [] /\ (Z.of_nat (length r) <= 2 ^ 64)%Z) ->
  nsm_cost_points RNum nsm_edge ang w rings =
  Ok (rsum (map (fun r => border_across ang r +
        across ang (nth (Z.to_nat ((2 ^ 64 - 1) mod Z.of_nat (length r))) r d) (nth 0 r d)) rings) / (2 * w)).
Proof.
  intros HN HW HR. unfold nsm_cost_points.
  replace (match rings with [] => true | _ => false end || nleb RNum w (nofZ RNum 0)) with false.
  2: { destruct rings; [congruence|]. symmetry. simpl. apply Rleb_false. lra. }
  pose proof (rings_ok nsm_edge ang d rings 0) as H. simpl nofZ. rewrite H by (apply Forall_forall; auto).
  cbn [bind]. f_equal. simpl nmul. simpl ndiv. f_equal. rewrite Rplus_0_l. apply rsum_ext. intros r Hr.
  rewrite edge_across. unfold border_across, wrap_index. f_equal. apply rsum_ext. intros e He. apply edge_across.
Qed.
Print Assumptions nsm_cost_exact.

(** Closed rings whose size is a power of two or a divisor of 2^64 - 1 (3, 4, 5, 8,
    15, 16, 17, ... points) are counted right. *)
Theorem nsm_cost_good_sizes ang w (rings : list (list pt)) (d : pt) :
  rings <> [] -> 0 < w ->
  (forall r, In r rings -> r <> [] /\ nth 0 r d = last r d /\
     (((Z.of_nat (length r)) | 2 ^ 64) \/ ((Z.of_nat (length r)) | 2 ^ 64 - 1))%Z) ->
  nsm_cost_points RNum nsm_edge ang w rings = Ok (rsum (map (border_across ang) rings) / (2 * w)).
Proof.
  intros HN HW HR. rewrite (nsm_cost_exact ang w rings d HN HW).
  - f_equal. f_equal. apply rsum_ext. intros r Hr. destruct (HR r Hr) as (Hne & HC & HD).
    assert (Hlen : (0 < length r)%nat) by (destruct r; [congruence|simpl; lia]).
    assert (E : nth (Z.to_nat ((2 ^ 64 - 1) mod Z.of_nat (length r))) r d = nth 0 r d).
    { destruct HD as [HD|HD].
      - rewrite HC. destruct (snoc_cases r) as [->|(r' & p & ->)]; [congruence|]. rewrite last_last.
        set (n := Z.of_nat (length (r' ++ [p]))) in *.
        assert (En : ((2 ^ 64 - 1) mod n = n - 1)%Z).
        { destruct HD as [k Hk]. assert (Hn : (0 < n)%Z) by (unfold n; lia).
          rewrite Hk. replace (k * n - 1)%Z with ((n - 1) + (k - 1) * n)%Z by lia.
          rewrite Z.mod_add by lia. apply Z.mod_small. lia. }
        rewrite En. unfold n. rewrite app_length. simpl length.
        replace (Z.to_nat (Z.of_nat (length r' + 1) - 1)) with (length r') by lia. rewrite nth_middle. auto.
      - apply Z.mod_divide in HD; [|lia]. rewrite HD. auto. }
    rewrite E. unfold across. replace ((px (nth 0 r d) - px (nth 0 r d)) * sin ang - (py (nth 0 r d) - py (nth 0 r d)) * cos ang) with 0 by ring.
    rewrite Rabs_R0. lra.
  - intros r Hr. destruct (HR r Hr) as (Hne & _ & [HD|HD]); split; auto; apply Z.divide_pos_le in HD; lia.
Qed.
Print Assumptions nsm_cost_good_sizes.

(** A closed square (5 points). *)
Definition P2 (x y : R) : pt := mkPoint (N := RNum) x y 0.
Definition unit_square : list pt := [P2 0 0; P2 1 0; P2 1 1; P2 0 1; P2 0 0].
Example nsm_cost_example : nsm_cost_points RNum nsm_edge 0 1 [unit_square] = Ok 1.
Proof.
  rewrite (nsm_cost_good_sizes 0 1 [unit_square] (P2 0 0)).
  - f_equal. unfold border_across, rsum, across. simpl. rewrite sin_0, cos_0.
    repeat match goal with |- context [Rabs ?x] => first [rewrite (Rabs_right x) by lra | rewrite (Rabs_left x) by lra] end. lra.
  - discriminate.
  - lra.
  - intros r [<-|[]]. split; [discriminate|]. split; [reflexivity|]. right. exists 3689348814741910323%Z. reflexivity.
Qed.

(** C33, refuted: for a pentagon (6 points) the edge from vertex 3 to vertex 0, a
    diagonal, is counted as well. *)
Definition pentagon : list pt := [P2 0 0; P2 2 0; P2 2 1; P2 1 2; P2 0 1; P2 0 0].
Theorem nsm_cost_refuted : exists ang w ring,
  nth_error ring 0 = Some (last ring (P2 0 0)) /\ 0 < w /\
  nsm_cost_points RNum nsm_edge ang w [ring] <> Ok (border_across ang ring / (2 * w)).
Proof.
  exists 0, 1, pentagon. split; [reflexivity|]. split; [lra|].
  rewrite (nsm_cost_exact 0 1 [pentagon] (P2 0 0)).
  - intro H. cbn [map rsum fold_right] in H.
    assert (E : border_across 0 pentagon + across 0 (nth 3 pentagon (P2 0 0)) (nth 0 pentagon (P2 0 0)) + 0 = border_across 0 pentagon).
    { change (Z.to_nat ((2 ^ 64 - 1) mod Z.of_nat (length pentagon))) with 3%nat in H.
      injection H as H. cbn [nth pentagon]. unfold Rdiv in H. apply (Rmult_eq_reg_r (/ (2 * 1))); [exact H|]. apply Rinv_neq_0_compat. lra. }
    unfold across in E at 1. simpl in E. rewrite sin_0, cos_0 in E.
    match type of E with context [Rabs ?x] => rewrite (Rabs_right x) in E by lra end. lra.
  - discriminate.
  - lra.
  - intros r [<-|[]]. split; [discriminate|]. simpl. lia.
Qed.
Print Assumptions nsm_cost_refuted.

(** C34.  Count and length objectives are sums, over cells as well. *)
Section Swaths.
  Context {C CS S : Type}.
  Variable cells_of : CS -> list C.
  Variable single : C -> CS.
  Variable s_length : S -> R.
  Variable cs_area : CS -> R.
  Variable covered : CS -> S -> CS.
  Variable intersects : CS -> CS -> bool.
  Variable inter : CS -> CS -> CS.
  Variable covered_area : CS -> list S -> S -> R.
  Variable nsm : R -> R -> C -> R.
  Notation by_cells k cs d := (sg_cells_by_cells RNum cells_of s_length cs_area covered intersects inter covered_area nsm k cs d).
  Notation with_cells k cs l := (sg_cells_swaths RNum cells_of s_length cs_area covered intersects inter covered_area nsm k cs l).

  Theorem swath_objectives_additive (d : list (list S)) :
    sg_by_cells RNum s_length SGNSwath d = INR (length (concat d)) /\
    sg_by_cells RNum s_length SGNSwathModified d = INR (length (concat d)) /\
    sg_by_cells RNum s_length SGSwathLength d = rsum (map s_length (concat d)) /\
    (forall k, sg_by_cells RNum s_length k d = rsum (map (sg_swaths RNum s_length k) d)) /\
    (forall k, sg_by_cells RNum s_length k [] = 0 /\ sg_swaths RNum s_length k [] = 0).
  Proof.
    rewrite !by_cells_sum. split; [simpl; rewrite INR_IZR_INZ; auto|]. split; [simpl; rewrite INR_IZR_INZ; auto|]. split.
    - rewrite swaths_sum. reflexivity.
    - split.
      + intro k. pose proof (fold_acc (sg_swaths RNum s_length k) d 0) as H. rewrite Rplus_0_l in H. exact H.
      + intro k. destruct k; split; reflexivity.
  Qed.

  (** C98.  Given a field as well: every objective but FieldCoverage is defined for
      every input; FieldCoverage exactly for non-empty lists of swaths. *)
  Lemma foldM_defined {A B} (f : A -> B -> outcome A) l : (forall a b, In b l -> exists a', f a b = Ok a') ->
    forall a, exists a', foldM f l a = Ok a'.
  Proof.
    induction l as [|b l IH]; intros H a; [exists a; auto|]. cbn [foldM].
    destruct (H a b) as [a' ->]; [left; auto|]. cbn [bind]. apply IH. intros; apply H; right; auto.
  Qed.

  Theorem field_objectives_defined k cs (d : list (list S)) :
    (exists c, by_cells k cs d = Ok c) <-> (k = SGFieldCoverage -> forall l, In l d -> l <> []).
  Proof.
    assert (HS : forall l, (k = SGFieldCoverage -> l <> []) -> exists c, with_cells k cs l = Ok c).
    { intros l Hl. destruct k; simpl; eauto.
      - unfold fc_cost. destruct l as [|s l]; [specialize (Hl eq_refl); congruence|]. cbn. eauto.
      - rewrite ov_exact. eauto. }
    split.
    - intros [c E] -> l Hl. unfold sg_cells_by_cells in E. revert E. generalize (nofZ RNum 0).
      induction d as [|l' d IH]; intros acc E; [destruct Hl|]. cbn [foldM] in E. destruct Hl as [->|Hl].
      + intros ->. discriminate.
      + destruct (with_cells SGFieldCoverage cs l') as [x| | |] eqn:E1; try discriminate. cbn [bind] in E.
        eapply IH; eauto.
    - intro H. apply foldM_defined. intros a l Hl. destruct (HS l) as [c ->]; auto. cbn [bind]. eauto.
  Qed.

  (** C34, refuted for FieldCoverage: the empty list of swaths is undefined. *)
  Theorem field_coverage_empty_refuted : forall cs, with_cells SGFieldCoverage cs [] = UB.
  Proof. reflexivity. Qed.
End Swaths.
Print Assumptions swath_objectives_additive.
Print Assumptions field_objectives_defined.
Print Assumptions field_coverage_empty_refuted.

Example swath_objectives_example :
  sg_by_cells RNum INR SGSwathLength [[1; 2]; []; [4]]%nat = 7 /\ sg_by_cells RNum INR SGNSwath [[1; 2]; []; [4]]%nat = 3.
Proof. unfold sg_by_cells. simpl. split; lra. Qed.

(** Cells, covered areas and swaths given by numbers. *)
Example field_objectives_example : forall nsm covered_area,
  exists c, sg_cells_by_cells RNum (fun cs : list nat => cs) INR (fun _ => 1) (fun _ (s : nat) => [s]) (fun _ _ => false) (fun _ b => b) covered_area nsm
    SGFieldCoverage [1%nat] [[1; 2]; [4]]%nat = Ok c.
Proof. intros nsm ca. apply field_objectives_defined. intros _ l [<-|[<-|[]]]; discriminate. Qed.

(** C76.  Smaller signed cost = better. *)
Theorem signed_cost_order (minimizing : bool) (a b : R) :
  with_sign RNum minimizing a < with_sign RNum minimizing b <-> (if minimizing then a < b else b < a).
Proof. unfold with_sign. destruct minimizing; simpl; lra. Qed.
Print Assumptions signed_cost_order.

(** The first smallest signed cost is an optimum of the objective itself. *)
Theorem signed_cost_optimum (minimizing : bool) (costs : list R) : costs <> [] ->
  exists c, nth_error costs (min_index (map (with_sign RNum minimizing) costs)) = Some c /\
    forall x, In x costs -> if minimizing then c <= x else x <= c.
Proof.
  intro H. destruct (min_index_ok (map (with_sign RNum minimizing) costs)) as (m & Hm & G).
  { destruct costs; [congruence|discriminate]. }
  set (k := min_index _) in *.
  rewrite nth_error_map in Hm. change (carrier RNum) with R in Hm.
  destruct (nth_error costs k) as [c|] eqn:E; [|discriminate].
  exists c. split; auto. intros x Hx. injection Hm as <-. specialize (G _ (in_map _ _ _ Hx)).
  unfold with_sign in G. destruct minimizing; simpl in G; lra.
Qed.
Print Assumptions signed_cost_optimum.
Example signed_cost_example : with_sign RNum false 3 < with_sign RNum false 2.
Proof. apply signed_cost_order. lra. Qed.

(** C99.  The headland objective is the share of the field that remains, when the
    area of the difference is what the remaining part leaves over; it is in [0, 1]
    and maximising it is minimising the lost area. *)
Theorem headland_cost_share (total rem : R) : 0 < total -> 0 <= rem <= total ->
  hg_cost RNum (total - rem) total = rem / total /\ 0 <= hg_cost RNum (total - rem) total <= 1.
Proof.
  intros HT HR. assert (E : hg_cost RNum (total - rem) total = rem / total).
  { unfold hg_cost. simpl. field. lra. }
  split; auto. rewrite E. split.
  - apply Rmult_le_pos; [lra|]. left. apply Rinv_0_lt_compat. auto.
  - apply (Rmult_le_reg_r total); auto. unfold Rdiv. rewrite Rmult_assoc, Rinv_l by lra. lra.
Qed.
Print Assumptions headland_cost_share.
Example headland_cost_example : hg_cost RNum (8 - 6) 8 = 3 / 4.
Proof. unfold hg_cost. simpl. lra. Qed.

(** C76.  Which objectives are maximised: field coverage only; its signed cost is
    the negated cost, that of the others is the cost itself. *)
Theorem signed_cost_exact (k : sg_kind) (c : R) :
  with_sign RNum (sg_isMinimizing k) c = match k with SGFieldCoverage => - c | _ => c end.
Proof. unfold with_sign. destruct k; simpl; ring. Qed.
Print Assumptions signed_cost_exact.

(** C103.  The angles at the ends of a swath: those of its first and last leg; -1
    without points; out_of_range with a single point. *)
Theorem swath_end_angles (P W : Type) (angle : P -> P -> R) (s : swath P W) :
  match sw_path s with
  | [] => sw_getInAngle RNum angle s = Ok (-1) /\ sw_getOutAngle RNum angle s = Ok (-1)
  | [_] => sw_getInAngle RNum angle s = Throw OutOfRange /\ sw_getOutAngle RNum angle s = Throw OutOfRange
  | a :: b :: _ => sw_getInAngle RNum angle s = Ok (angle a b) /\
      exists pre c d, sw_path s = pre ++ [c; d] /\ sw_getOutAngle RNum angle s = Ok (angle c d)
  end.
Proof.
  unfold sw_getInAngle, sw_getOutAngle. destruct (sw_path s) as [|a [|b l]] eqn:E; auto.
  split; auto. destruct (@exists_last _ (a :: b :: l)) as (l1 & d & E1); [discriminate|].
  destruct (@exists_last _ l1) as (l2 & c & ->). { intros ->. discriminate. }
  exists l2, c, d. rewrite E1, <- app_assoc. split; auto.
  rewrite app_assoc, !rev_app_distr. reflexivity.
Qed.
Print Assumptions swath_end_angles.
Example swath_end_angles_example :
  sw_path (mkSwath nat R 0%Z [1; 2; 3]%nat 1 true MAINLAND) = [1; 2; 3]%nat.
Proof. reflexivity. Qed.
