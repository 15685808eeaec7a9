(** Properties of the length of a route and of the headland objective. *)
From Coq Require Import List Arith ZArith Lia Bool Reals Lra Floats.
From Verif Require Import Outcome Num Swath_Model Route_Model Route_Spec Route_Proofs Objective_Model Objective_Spec Objective_Proofs Measures_Model.
Import ListNotations.
Open Scope R_scope.

Lemma nth_skip {A} (l : list A) : forall i k, nth_error (skipn i l) k = nth_error l (i + k).
Proof. induction l as [|a l IH]; intros [|i] k; simpl; auto. destruct k; auto. Qed.

Section RouteLength.
  Context {P W : Type}.
  Variable dist : P -> P -> R.

  Lemma ls_length_len (l : list P) : ls_length RNum dist l = len dist l.
  Proof.
    unfold ls_length. set (f := fun acc q => _).
    assert (G : forall l acc p, fst (fold_left f l (acc, Some p)) = acc + len dist (p :: l)).
    { clear l. induction l as [|q l IH]; intros acc p.
      - simpl. apply (eq_sym (Rplus_0_r acc)).
      - cbn [fold_left]. unfold f at 2. cbn [fst snd]. rewrite IH. rewrite len_cons. simpl nadd. lra. }
    destruct l as [|p l]; [auto|]. cbn [fold_left]. unfold f at 2. cbn [fst snd].
    rewrite G. apply Rplus_0_l.
  Qed.

  Hypothesis dist_pos : forall a b, 0 <= dist a b.

  Lemma len_pos (l : list P) : 0 <= len dist l.
  Proof.
    induction l as [|a [|b l] IH]; try (simpl; lra).
    rewrite len_cons. pose proof (dist_pos a b). lra.
  Qed.
  Lemma len_both (a b : list P) : len dist a + len dist b <= len dist (a ++ b).
  Proof.
    destruct a as [|p a]; [simpl; lra|].
    rewrite len_app. destruct b as [|q b]; [rewrite gap_nil_r; simpl; lra|].
    rewrite gap_last with (d := p) by discriminate.
    pose proof (dist_pos (last (p :: a) p) (hd p (q :: b))). lra.
  Qed.
  Lemma len_group (g : list (swath P W)) : rsum (map (fun s => len dist (sw_path s)) g) <= len dist (flat_map sw_path g).
  Proof.
    induction g as [|s g IH]; [simpl; lra|].
    cbn [map rsum fold_right flat_map]. pose proof (len_both (sw_path s) (flat_map sw_path g)).
    unfold rsum in IH. lra.
  Qed.
  Lemma rsum_app a b : rsum (a ++ b) = rsum a + rsum b.
  Proof. induction a as [|x a IH]; unfold rsum in *; simpl; [lra|]. rewrite IH. lra. Qed.
  Lemma len_weave (gs : list (list (swath P W))) : forall cs, (length cs <= length gs)%nat ->
    rsum (map (fun s => len dist (sw_path s)) (concat gs)) + rsum (map (len dist) cs) <= len dist (weave cs gs).
  Proof.
    induction gs as [|g gs IH]; intros cs H.
    - destruct cs; [unfold rsum; simpl; lra|simpl in H; lia].
    - cbn [concat weave]. rewrite map_app, rsum_app. pose proof (len_group g).
      destruct cs as [|c cs].
      + cbn [tl]. specialize (IH [] ltac:(simpl; lia)).
        pose proof (len_both (flat_map sw_path g) ([] ++ weave [] gs)). simpl app in *.
        unfold rsum in *. cbn [map fold_right] in *. lra.
      + cbn [tl]. specialize (IH cs ltac:(simpl in H; lia)).
        pose proof (len_both (flat_map sw_path g) (c ++ weave cs gs)).
        pose proof (len_both c (weave cs gs)).
        unfold rsum in *. cbn [map fold_right] in *. lra.
  Qed.
  Lemma len_straight (l : list P) : (forall a b c, dist a c <= dist a b + dist b c) ->
    forall p q d, (2 <= length l)%nat -> hd_error l = Some p -> last l d = q -> dist p q <= len dist l.
  Proof.
    intro T. induction l as [|a [|b l] IH]; intros p q d H2 Hp Hq; simpl in H2; try lia.
    simpl in Hp. injection Hp as ->. rewrite len_cons.
    destruct l as [|c l].
    - simpl in *. subst. lra.
    - assert (H : dist b q <= len dist (b :: c :: l)) by (apply (IH b q d); [simpl; lia|auto|exact Hq]).
      specialize (T p b q). lra.
  Qed.
End RouteLength.

(** C262. The length of a route built by any calls is that of the line it describes: at least
    the lengths of all its swaths and connections together, and at least the distance between
    any two of its points. *)
Theorem route_total_length : forall (P W : Type) (dist : P -> P -> R) (h : list (rop P W)) r, r_run h = Ok r ->
  exists c, r_length RNum dist r = Ok c /\ c = len dist (flat_map rop_line h) /\
  (r_isEmpty r = true -> c = 0) /\
  ((forall a b, 0 <= dist a b) ->
     rsum (map (fun s => len dist (sw_path s)) (concat (r_swaths r))) + rsum (map (len dist) (r_conns r)) <= c /\
     ((forall a b c, dist a c <= dist a b + dist b c) -> forall i j p q, (i < j)%nat ->
        nth_error (flat_map rop_line h) i = Some p -> nth_error (flat_map rop_line h) j = Some q -> dist p q <= c)).
Proof.
  intros P W dist h r E. destruct (run_ok h) as (r0 & E0 & Hs & L & _). rewrite E in E0. injection E0 as <-.
  exists (ls_length RNum dist (line_of r)). unfold r_length. rewrite asLineString_ok. split; [auto|].
  rewrite ls_length_len, <- L. split; [auto|]. split.
  - intro He. unfold r_isEmpty in He. destruct r as [v cs]. simpl in He.
    destruct v as [|g v], cs as [|c cs]; simpl in He; try discriminate. auto.
  - intro D. split.
    + unfold line_of. destruct r as [v cs]. cbn [r_conns r_swaths] in *. destruct cs as [|c cs].
      * apply (len_weave dist D v []). simpl. lia.
      * pose proof (len_both dist D c (weave cs v)) as H1.
        assert (H2 : (length cs <= length v)%nat) by (unfold shape in Hs; simpl in Hs; lia).
        pose proof (len_weave dist D v cs H2) as H3. unfold rsum in *. cbn [map fold_right]. lra.
    + intros T i j p q Hij Hp Hq.
      set (l := line_of r) in *. assert (Hj : (j < length l)%nat) by (apply nth_error_Some; congruence).
      assert (Ei : l = firstn i l ++ skipn i l) by (symmetry; apply firstn_skipn).
      pose proof (len_both dist D (firstn i l) (skipn i l)) as H1. rewrite <- Ei in H1.
      pose proof (len_pos dist D (firstn i l)) as H2.
      set (m := skipn i l) in *.
      assert (Em : m = firstn (j - i + 1) m ++ skipn (j - i + 1) m) by (symmetry; apply firstn_skipn).
      pose proof (len_both dist D (firstn (j - i + 1) m) (skipn (j - i + 1) m)) as H3. rewrite <- Em in H3.
      pose proof (len_pos dist D (skipn (j - i + 1) m)) as H4.
      assert (Lm : length m = (length l - i)%nat) by apply skipn_length.
      assert (Hm0 : nth_error m 0 = Some p) by (unfold m; rewrite nth_skip, Nat.add_0_r; auto).
      assert (Hmj : nth_error m (j - i) = Some q).
      { unfold m. rewrite nth_skip. replace (i + (j - i))%nat with j by lia. auto. }
      assert (H5 : dist p q <= len dist (firstn (j - i + 1) m)).
      { apply (len_straight dist) with (d := p); auto.
        - rewrite firstn_length. lia.
        - destruct m; [discriminate|]. replace (j - i + 1)%nat with (S (j - i)) by lia. simpl in *. auto.
        - assert (Hl : firstn (j - i + 1) m = firstn (j - i) m ++ [q]).
          { clear - Hmj. revert Hmj. generalize (j - i)%nat. induction m as [|x m IH]; intros [|n] H; simpl in *; try discriminate.
            - injection H as ->. auto.
            - rewrite (IH n H). auto. }
          rewrite Hl. apply last_last. }
      lra.
Qed.
Print Assumptions route_total_length.

(** C263. The headland objective is the share of the field that remains, for every combination of cells and lists
    of cells: [common] is the part two regions share. *)
Theorem headland_objective : forall (cell cells : Type) (to_cells : cell -> cells)
    (difference common : cells -> cells -> cells) (area : cells -> R),
  (forall a, 0 <= area a) -> (forall a b, area (difference a b) + area (common a b) = area a) ->
  forall total rem, 0 < area total ->
  let share := area (common total rem) / area total in
  hg_cells_cells RNum difference area total rem = share /\ 0 <= share <= 1 /\
  (forall c, total = to_cells c -> hg_cell_cells RNum to_cells difference area c rem = share) /\
  (forall c, rem = to_cells c -> hg_cells_cell RNum to_cells difference area total c = share) /\
  (forall c d, total = to_cells c -> rem = to_cells d -> hg_cell_cell RNum to_cells difference area c d = share) /\
  forall rem', (rem_area_signed RNum difference area total rem < rem_area_signed RNum difference area total rem' <->
                area (common total rem') < area (common total rem)).
Proof.
  intros cell cells to_cells difference common area A0 AD total rem HT share.
  assert (G : forall r, hg_cells_cells RNum difference area total r = area (common total r) / area total).
  { intro r. unfold hg_cells_cells, hg_cost. simpl. rewrite <- (AD total r).
    refine (_ : @eq R _ _). assert (area (difference total r) + area (common total r) <> 0) by (rewrite AD; lra).
    field. auto. }
  assert (D : forall a b, a / area total < b / area total <-> a < b).
  { intros a b. unfold Rdiv. assert (0 < / area total) by (apply Rinv_0_lt_compat; auto). split; intro.
    - apply Rmult_lt_reg_r with (/ area total); auto.
    - apply Rmult_lt_compat_r; auto. }
  split; [apply G|]. split.
  { pose proof (A0 (common total rem)). pose proof (A0 (difference total rem)). pose proof (AD total rem).
    unfold share. split.
    - apply Rmult_le_pos; auto. apply Rlt_le, Rinv_0_lt_compat. auto.
    - apply Rmult_le_reg_r with (area total); auto. unfold Rdiv. rewrite Rmult_assoc, Rinv_l by lra. lra. }
  split; [intros c ->; apply G|]. split; [intros c ->; apply G|]. split; [intros c d -> ->; apply G|].
  intro rem'. unfold rem_area_signed, rem_area_isMinimizing, with_sign. rewrite !G.
  rewrite <- (D (area (common total rem')) (area (common total rem))).
  change (-1 * (area (common total rem) / area total) < -1 * (area (common total rem') / area total) <->
          area (common total rem') / area total < area (common total rem) / area total).
  split; intro; lra.
Qed.
Print Assumptions headland_objective.

(** C264. With a field of no area the cost is not a number in [0, 1] (nor any number). *)
Theorem headland_no_area_refuted : exists (area : unit -> float) (total rem : unit),
  let c := hg_cells_cells FNum (fun a _ => a) area total rem in
  PrimFloat.eqb (area total) 0 = true /\ PrimFloat.leb 0 c = false /\ PrimFloat.leb c 1 = false /\ PrimFloat.eqb c c = false.
Proof. exists (fun _ => 0%float), tt, tt. cbv beta iota zeta delta [hg_cells_cells hg_cost]. simpl. repeat split; reflexivity. Qed.
Print Assumptions headland_no_area_refuted.

(** Two swaths of whole numbers with a connection of two points between them: 5 + (1 + 2 + 1) + 3. *)
Example route_length_example :
  let sw a b := mkSwath Z nat 0 [a; b]%Z 1%nat true MAINLAND in
  let h := [RAddSwath (sw 0 5)%Z; RAddPoints [6; 8]%Z; RAddSwath (sw 9 12)%Z] in
  (exists r, r_run h = Ok r) /\
  (do r <- r_run h; r_length RNum (fun a b => Rabs (IZR b - IZR a)) r) = Ok (5 + 1 + 2 + 1 + 3).
Proof.
  cbv zeta. split; [eexists; reflexivity|]. cbn. unfold r_length. cbn. f_equal. unfold ls_length. cbn.
  repeat match goal with |- context [Rabs ?x] => rewrite (Rabs_right x) by lra end. lra.
Qed.

(** Regions [0, n] of a line: 5 of 8 remain when [0, 5] does. *)
Example headland_example :
  let area := INR in
  (forall a, 0 <= area a) /\ (forall a b, area (a - b)%nat + area (Nat.min a b) = area a) /\ 0 < area 8%nat /\
  hg_cells_cells RNum Nat.sub area 8%nat 5%nat = 5 / 8.
Proof.
  cbv zeta. split; [apply pos_INR|]. split.
  - intros a b. rewrite <- plus_INR. f_equal. lia.
  - split; [simpl; lra|]. unfold hg_cells_cells, hg_cost. simpl. refine (_ : @eq R _ _). field.
Qed.
