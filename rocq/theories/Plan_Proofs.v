(** Proofs about planning in one call. *)
From Coq Require Import List Arith ZArith Lia Bool Reals Lra Psatz Permutation.
From Verif Require Import Outcome ListAux Num Swath_Model Graph_Model Graph2D_Model Route_Model Point_Model Angle_Model Angle_Spec
  Objective_Model Objective_Spec Objective_Proofs Objective_Proofs2 Objective_Props SwathGen_Model SwathGen_Spec SwathGen_Proofs
  SwathGen_Proofs2 SwathGen_Props Robot_Model Transform_Model Plan_Model Plan_Spec.
Import ListNotations.
Open Scope R_scope.

Lemma cell_extents a (c : rcell) : concat c <> [] -> exists x0 x1 y0 y1,
  extent (along a) (concat c) x0 x1 /\ extent (across_of a) (concat c) y0 y1.
Proof. intro H. exists (env_min (along a) c), (env_max (along a) c), (env_min (across_of a) c), (env_max (across_of a) c). split; apply env_extent; auto. Qed.

(** The lines of one cell, with all that is known about them. *)
Lemma lines_laid a w (c : rcell) : 0 < w -> concat c <> [] ->
  exists lines, laid a w c lines /\
    (forall x0 x1 y0 y1, extent (along a) (concat c) x0 x1 -> extent (across_of a) (concat c) y0 y1 -> y0 < y1 ->
     forall q, x0 <= along a q <= x1 -> y0 <= across_of a q <= y1 ->
       exists line, In line lines /\ within (w / 2) line q) /\
    exists n, forall fuel, (n <= fuel)%nat -> sg_lines fuel false a w c = Ok lines.
Proof.
  intros Hw Hc. destruct (cell_extents a c Hc) as (x0 & x1 & y0 & y1 & HX & HY).
  destruct (lines_leave_no_gap false a w c _ _ _ _ Hw HX HY) as (lines & n & L1 & L2 & L3).
  destruct (line_count a w c _ _ _ _ Hw HX HY false) as (lines' & K1 & K2 & K3 & _).
  assert (lines' = lines).
  { pose proof (L1 (max n (length lines')) (Nat.le_max_l _ _)) as E. rewrite K1 in E by apply Nat.le_max_r. congruence. }
  subst lines'. exists lines. split; [|split; [|eauto]].
  - exists x0, x1, y0, y1. auto 10.
  - intros u0 u1 v0 v1 HU HV Hv q Hq1 Hq2.
    destruct (extent_unique _ _ _ _ _ _ HU HX) as [-> ->]. destruct (extent_unique _ _ _ _ _ _ HV HY) as [-> ->]. auto.
Qed.

(** Laid lines are determined up to the fuel. *)
Lemma eventually_all {A} (Q : A -> nat -> Prop) (l : list A) :
  (forall x, In x l -> exists n, forall m, (n <= m)%nat -> Q x m) ->
  exists n, forall m x, (n <= m)%nat -> In x l -> Q x m.
Proof.
  induction l as [|a l IH]; intro H; [exists 0%nat; intros ? ? _ []|].
  destruct IH as (n & Hn); [intros x Hx; apply H; right; auto|]. destruct (H a (or_introl eq_refl)) as (n' & Hn').
  exists (max n n'). intros m x Hm [<-|Hx]; [apply Hn'|apply Hn; auto]; lia.
Qed.

Lemma mapM_exists {A B} (f : A -> outcome B) (Q : A -> B -> Prop) l :
  (forall x, In x l -> exists y, f x = Ok y /\ Q x y) -> exists ys, mapM f l = Ok ys /\ Forall2 Q l ys.
Proof.
  induction l as [|a l IH]; intro H; [exists []; split; auto; constructor|].
  destruct IH as (ys & E & F); [intros x Hx; apply H; right; auto|].
  destruct (H a (or_introl eq_refl)) as (y & Ey & Qy). exists (y :: ys). cbn [mapM]. rewrite Ey. cbn [bind]. rewrite E. auto.
Qed.

Lemma bf_n_360 : bf_n bf_step = 360%nat.
Proof.
  pose proof PI_RGT_0 as HP.
  assert (E : 2 * PI / bf_step = 360) by (unfold bf_step; field; lra).
  unfold bf_n. rewrite E. destruct (trunc_spec 360) as (A & B & C); [lra|].
  assert (Rtrunc 360 <= 360)%Z by (apply le_IZR; lra).
  assert (360 < Rtrunc 360 + 1)%Z by (apply lt_IZR; rewrite plus_IZR; lra).
  replace (Rtrunc 360) with 360%Z by lia. reflexivity.
Qed.

Section Costs.
  Variable inside : list (list rpoint) -> rcell -> list (list rpoint).
  Variable wkt : rpoint -> rpoint.
  Variable s_length : rswath -> R.
  Variable cs_area : list rcell -> R.
  Variable covered : list rcell -> rswath -> list rcell.
  Variable intersects : list rcell -> list rcell -> bool.
  Variable inter : list rcell -> list rcell -> list rcell.
  Variable covered_area : list rcell -> list rswath -> rswath -> R.
  Notation angle_cost fuel := (plan_angle_cost inside wkt s_length cs_area covered intersects inter covered_area fuel).
  Notation cost_swaths := (plan_cost_swaths s_length cs_area covered intersects inter covered_area).

  Lemma gen_laid a w c : 0 < w -> concat c <> [] ->
    exists lines s, laid a w c lines /\
      (forall x0 x1 y0 y1, extent (along a) (concat c) x0 x1 -> extent (across_of a) (concat c) y0 y1 -> y0 < y1 ->
       forall q, x0 <= along a q <= x1 -> y0 <= across_of a q <= y1 ->
         exists line, In line lines /\ within (w / 2) line q) /\
      swaths_of wkt w (inside lines c) s /\
      exists n, forall fuel, (n <= fuel)%nat -> sg_lines fuel false a w c = Ok lines /\ sg_generateSwaths inside wkt fuel false a w c = Ok s.
  Proof.
    intros Hw Hc. destruct (lines_laid a w c Hw Hc) as (lines & HL & HG & n & E).
    destruct (generated_swaths inside wkt false a w c lines n Hw (E n (le_n n))) as (s & Es & L & S1).
    exists lines, s. split; auto. split; auto. split; [split; auto|]. exists n. intros fuel Hf. split; auto.
    unfold sg_generateSwaths in *. rewrite E in * by auto. exact Es.
  Qed.

  Notation dcost := (direction_cost s_length cs_area covered intersects inter covered_area).

  Lemma ones (l : list rswath) : rsum (map (fun _ => 0 + 1) l) = INR (length l).
  Proof. induction l as [|x l IH]; simpl map; [reflexivity|]. simpl length. rewrite S_INR. cbn [rsum fold_right]. fold (rsum (map (fun _ : rswath => 0 + 1) l)). rewrite IH. lra. Qed.

  (** What is computed for the swaths of a direction. *)
  Lemma cost_swaths_ok opt w a c s : isFastCompAvailable (getSGObjPtr opt) = false -> (o_sg_obj opt = FIELD_COV -> s <> []) ->
    exists x, cost_swaths (getSGObjPtr opt) c s = Ok x /\ dcost (o_sg_obj opt) w c a s x.
  Proof.
    intros Hf H. unfold plan_cost_swaths, sg_cell_swaths, getSGObjPtr in *. destruct (o_sg_obj opt); try discriminate Hf; cbn [bind].
    - eexists. split; [reflexivity|]. rewrite signed_cost_exact. simpl. rewrite <- ones.
      pose proof (fold_acc (fun _ : rswath => 0 + 1) s 0) as E. etransitivity; [exact E|apply Rplus_0_l].
    - eexists. split; [reflexivity|]. rewrite signed_cost_exact. simpl.
      pose proof (fold_acc (fun x : rswath => 0 + s_length x) s 0) as E.
      etransitivity; [exact E|]. etransitivity; [apply Rplus_0_l|]. apply rsum_ext. intros. lra.
    - unfold fc_cost. destruct s as [|s0 s]; [exfalso; apply H; auto|]. cbn [vec_index nth_error bind]. eexists. split; [reflexivity|].
      rewrite signed_cost_exact. exists s0. split; reflexivity.
    - rewrite (ov_exact cs_area covered intersects inter [c] s). cbn [bind]. eexists. split; [reflexivity|].
      intro s0. rewrite signed_cost_exact.
      pose proof (overlap_cost_exact cs_area covered intersects inter [c] s s0) as E.
      rewrite (ov_exact cs_area covered intersects inter [c] s) in E. injection E as E. exact E.
  Qed.

  Lemma angle_cost_ok opt a w c : 0 < w -> concat c <> [] ->
    (o_sg_obj opt = N_SWATH_MOD -> forall r, In r c -> r <> [] /\ (Z.of_nat (length r) <= 2 ^ 64)%Z) ->
    (o_sg_obj opt = FIELD_COV -> forall lines, laid a w c lines -> inside lines c <> []) ->
    forall lines s, laid a w c lines -> swaths_of wkt w (inside lines c) s ->
    forall n, (forall fuel, (n <= fuel)%nat -> sg_generateSwaths inside wkt fuel false a w c = Ok s) ->
    exists x, dcost (o_sg_obj opt) w c a s x /\ forall fuel, (n <= fuel)%nat -> angle_cost fuel (getSGObjPtr opt) w c a = Ok x.
  Proof.
    intros Hw Hc Hr Hk lines s HL HS n E. unfold plan_angle_cost, sg_computeCostOfAngle.
    destruct (isFastCompAvailable (getSGObjPtr opt)) eqn:Ef.
    - assert (Eo : o_sg_obj opt = N_SWATH_MOD) by (unfold getSGObjPtr in Ef; destruct (o_sg_obj opt); try discriminate; auto).
      unfold plan_cost_fast, getSGObjPtr. rewrite Eo.
      assert (Hne : c <> []) by (intro E0; subst; apply Hc; reflexivity).
      rewrite (nsm_cost_exact a w c origin Hne Hw (Hr Eo)). cbn [bind]. eexists. split; [|intros; reflexivity].
      intro d. rewrite signed_cost_exact. pose proof (nsm_cost_exact a w c origin Hne Hw (Hr Eo)) as E1.
      rewrite (nsm_cost_exact a w c d Hne Hw (Hr Eo)) in E1. injection E1 as E1. symmetry. exact E1.
    - destruct (cost_swaths_ok opt w a c s Ef) as (x & Ex & Dx).
      { intros Ek Es. subst s. destruct HS as [HS _]. simpl in HS. apply (Hk Ek lines HL). destruct (inside lines c); [auto|discriminate]. }
      exists x. split; auto. intros fuel Hf. rewrite E by auto. exact Ex.
  Qed.

  Notation laid_ok := (laid_ok inside wkt).
  Variable sched : nat -> list nat.
  Hypothesis HP : forall n, Permutation (sched n) (seq 0 n).

  Notation plan_one fuel opt w c := (match o_sg_alg opt with
    | BRUTE_FORCE => generateBestSwaths inside wkt s_length cs_area covered intersects inter covered_area fuel sched (getSGObjPtr opt) w c
    | GIVEN_ANGLE => sg_generateSwaths inside wkt fuel false (o_sg_angle opt) w c
    end).

  (** One cell. *)
  Lemma one_cell opt w c : 0 < w -> plannable inside opt w c ->
    exists a lines s (cost : R -> R), chosen opt cost a /\ laid_ok w c a lines s /\
      (o_sg_alg opt = BRUTE_FORCE -> forall k, (k < 360)%nat -> exists lines' s', laid_ok w c (degrees k) lines' s' /\
         dcost (o_sg_obj opt) w c (degrees k) s' (cost (degrees k))) /\
      exists n, forall fuel, (n <= fuel)%nat -> plan_one fuel opt w c = Ok s.
  Proof.
    intros Hw (Hc & Hr & Hk). unfold chosen. destruct (o_sg_alg opt) eqn:Ea.
    - specialize (Hr eq_refl). specialize (Hk eq_refl).
      set (Q := fun k x => exists lines' s', laid_ok w c (degrees k) lines' s' /\ dcost (o_sg_obj opt) w c (degrees k) s' x /\
          exists n, forall fuel, (n <= fuel)%nat -> angle_cost fuel (getSGObjPtr opt) w c (degrees k) = Ok x).
      assert (HQ : forall k, exists x, (k < 360)%nat -> Q k x).
      { intro k. destruct (le_lt_dec 360 k) as [Hk'|Hk']; [exists 0; lia|].
        destruct (gen_laid (degrees k) w c Hw Hc) as (lines & s & A1 & A2 & A3 & n & A4).
        destruct (angle_cost_ok opt (degrees k) w c Hw Hc Hr) with (lines := lines) (s := s) (n := n) as (x & X1 & X2); auto.
        - intros Eo lines' HL. eapply Hk; eauto.
        - intros fuel Hf. apply A4; auto.
        - exists x. intros _. exists lines, s. split; [split; auto|]. eauto. }
      assert (HF : exists f : nat -> R, forall k, (k < 360)%nat -> Q k (f k)).
      { assert (HB : forall m, exists f : nat -> R, forall k, (k < m)%nat -> (k < 360)%nat -> Q k (f k)).
        { induction m as [|m (f & Hf)]; [exists (fun _ => 0); intros; lia|].
          destruct (HQ m) as (x & Hx). exists (fun k => if Nat.eqb k m then x else f k). intros k H1 H2.
          destruct (Nat.eqb_spec k m) as [->|]; auto. apply Hf; auto; lia. }
        destruct (HB 360%nat) as (f & Hf). exists f. intros. apply Hf; auto. }
      destruct HF as (f & Hf).
      set (cost := fun a => f (Z.to_nat (Rtrunc (a / (PI / 180) + / 2)))).
      assert (Hcost : forall k, cost (degrees k) = f k).
      { intro k. unfold cost. f_equal. pose proof PI_RGT_0. unfold degrees.
        replace (INR k * (PI / 180) / (PI / 180)) with (INR k) by (field; lra).
        pose proof (pos_INR k). destruct (trunc_spec (INR k + / 2)) as (A & B & C); [lra|]. rewrite INR_IZR_INZ in B, C.
        assert (Rtrunc (INR k + / 2) < Z.of_nat k + 1)%Z by (apply lt_IZR; rewrite plus_IZR, <- INR_IZR_INZ in *; rewrite INR_IZR_INZ in *; lra).
        assert (Z.of_nat k < Rtrunc (INR k + / 2) + 1)%Z by (apply lt_IZR; rewrite plus_IZR, <- INR_IZR_INZ in *; rewrite INR_IZR_INZ in *; lra).
        lia. }
      destruct (eventually_all (fun k fuel => angle_cost fuel (getSGObjPtr opt) w c (degrees k) = Ok (f k)) (seq 0 360)) as (n & Hn).
      { intros k Hk'. apply in_seq in Hk'. destruct (Hf k) as (_ & _ & _ & _ & n & Hn); [lia|]. eauto. }
      assert (Hstep : 0 < bf_step <= 2 * PI /\ 2 * PI / bf_step < 2147483648).
      { pose proof PI_RGT_0. unfold bf_step. split; [lra|]. replace (2 * PI / (PI / 180)) with 360 by (field; lra). lra. }
      assert (HB : exists k, (k < 360)%nat /\ (forall fuel, (n <= fuel)%nat ->
                bf_computeBestAngle (angle_cost fuel (getSGObjPtr opt) w c) bf_step sched = Ok (degrees k)) /\
          (forall j, (j < 360)%nat -> f k <= f j) /\ (forall j, (j < k)%nat -> f k < f j)).
      { assert (HB : forall fuel, (n <= fuel)%nat -> exists k, (k < 360)%nat /\
                bf_computeBestAngle (angle_cost fuel (getSGObjPtr opt) w c) bf_step sched = Ok (degrees k) /\
          (forall j, (j < 360)%nat -> f k <= f j) /\ (forall j, (j < k)%nat -> f k < f j)).
        { intros fuel Hfu. destruct (best_angle_core (angle_cost fuel (getSGObjPtr opt) w c) cost bf_step sched (proj1 Hstep) (proj2 Hstep) HP) as (k & K1 & K2 & K3 & K4).
          - rewrite bf_n_360. intros i Hi. fold (degrees i). change (INR i * bf_step) with (degrees i). rewrite Hcost. apply (Hn fuel i Hfu), in_seq. lia.
          - rewrite bf_n_360 in *. exists k. split; auto. split; auto. split; intros j Hj.
            + specialize (K3 j Hj). change (INR k * bf_step) with (degrees k) in K3. change (INR j * bf_step) with (degrees j) in K3. rewrite !Hcost in K3. auto.
            + specialize (K4 j Hj). change (INR k * bf_step) with (degrees k) in K4. change (INR j * bf_step) with (degrees j) in K4. rewrite !Hcost in K4. auto. }
        destruct (HB n (le_n n)) as (k & K1 & K2 & K3 & K4). exists k. split; auto. split; [|auto].
        intros fuel Hfu. destruct (HB fuel Hfu) as (k' & K1' & K2' & K3' & K4'). rewrite K2'. f_equal.
        destruct (lt_eq_lt_dec k k') as [[Hlt|Hlt]|Hlt]; [|congruence|].
        - specialize (K4' k Hlt). specialize (K3 k' K1'). lra.
        - specialize (K4 k' Hlt). specialize (K3' k K1). lra. }
      destruct HB as (k & K1 & K2 & K3 & K4).
      destruct (gen_laid (degrees k) w c Hw Hc) as (lines & s & A1 & A2 & A3 & n' & A4).
      exists (degrees k), lines, s, cost. split; [exists k; split; auto; split; auto; split; intros; rewrite !Hcost; auto|].
      split; [split; auto|]. split.
      + intros _ j Hj. destruct (Hf j Hj) as (l' & s' & L' & D' & _). exists l', s'. rewrite Hcost. auto.
      + exists (max n n'). intros fuel Hfu. unfold generateBestSwaths. rewrite K2 by lia. cbn [bind]. apply A4. lia.
    - destruct (gen_laid (o_sg_angle opt) w c Hw Hc) as (lines & s & A1 & A2 & A3 & n & A4).
      exists (o_sg_angle opt), lines, s, (fun _ => 0). split; auto. split; [split; auto|]. split; [discriminate|].
      exists n. intros fuel Hfu. apply A4; auto.
  Qed.
End Costs.

(** ** The headland *)
Lemma headland_ok buffer (rb : robot RNum) cells opt :
  (o_hg_alg opt = HG_CONST -> (1 <= o_hg_swaths opt)%Z) ->
  exists mainland rings, plan_headland buffer rb cells opt = Ok (mainland, rings) /\
    headland_parts buffer (rb_width rb) cells opt mainland rings.
Proof.
  intro H. unfold plan_headland, headland_parts. destruct (o_hg_alg opt); [exists cells, cells; auto|].
  specialize (H eq_refl). set (n := o_hg_swaths opt) in *.
  pose proof (headland_rings_out2in _ buffer cells (rb_width rb) n ltac:(lia)) as [HL HN].
  set (k := Z.to_nat (n / 2)).
  assert (Hk : (Z.of_nat k = n / 2)%Z) by (unfold k; apply Z2Nat.id, Z.div_pos; lia).
  assert (Hd : (2 * (n / 2) <= n <= 2 * (n / 2) + 1)%Z) by (pose proof (Z.div_mod n 2); pose proof (Z.mod_pos_bound n 2); lia).
  exists (buffer cells (- (IZR n * rb_width rb))), (buffer cells (- ((INR k + / 2) * rb_width rb))). split.
  - unfold hl_pick. destruct (Z.ltb_spec (n / 2) 0); [lia|]. fold k. unfold rb_getWidth, vec_index. rewrite HN by lia. cbn [bind].
    unfold hl_generateHeadlandArea. do 2 f_equal. f_equal. ring.
  - exists k. split; [auto|]. split; [lia|]. auto.
Qed.

Lemma headland_bad buffer (rb : robot RNum) cells opt : o_hg_alg opt = HG_CONST -> (o_hg_swaths opt < 1)%Z ->
  plan_headland buffer rb cells opt = UB.
Proof.
  intros E H. unfold plan_headland, hl_pick. rewrite E. set (n := o_hg_swaths opt) in *.
  destruct (Z.ltb_spec (n / 2) 0) as [|Hn]; [reflexivity|].
  assert (n = 0)%Z by (pose proof (Z.div_mod n 2); pose proof (Z.mod_pos_bound n 2); lia).
  replace n with 0%Z by lia. reflexivity.
Qed.

Section Swaths.
  Variable inside : list (list rpoint) -> rcell -> list (list rpoint).
  Variable wkt : rpoint -> rpoint.
  Variable s_length : rswath -> R.
  Variable cs_area : list rcell -> R.
  Variable covered : list rcell -> rswath -> list rcell.
  Variable intersects : list rcell -> list rcell -> bool.
  Variable inter : list rcell -> list rcell -> list rcell.
  Variable covered_area : list rcell -> list rswath -> rswath -> R.
  Variable sched : nat -> list nat.
  Hypothesis HP : forall n, Permutation (sched n) (seq 0 n).
  Notation dcost := (direction_cost s_length cs_area covered intersects inter covered_area).
  Notation swaths_planned fuel := (plan_swaths inside wkt s_length cs_area covered intersects inter covered_area fuel sched).

  Notation cell_ok := (cell_ok s_length cs_area covered intersects inter covered_area inside wkt).

  Lemma swaths_ok (rb : robot RNum) opt mainland : 0 < rb_cov_width rb -> Forall (plannable inside opt (rb_cov_width rb)) mainland ->
    exists sbc n, Forall2 (cell_ok opt (rb_cov_width rb)) mainland sbc /\
      forall fuel, (n <= fuel)%nat -> swaths_planned fuel rb mainland opt = Ok sbc.
  Proof.
    intros Hw HF. set (w := rb_cov_width rb) in *.
    assert (H : exists sbc n, Forall2 (cell_ok opt w) mainland sbc /\
      forall fuel, (n <= fuel)%nat -> mapM (fun c => match o_sg_alg opt with
        | BRUTE_FORCE => generateBestSwaths inside wkt s_length cs_area covered intersects inter covered_area fuel sched (getSGObjPtr opt) w c
        | GIVEN_ANGLE => sg_generateSwaths inside wkt fuel false (o_sg_angle opt) w c end) mainland = Ok sbc).
    { induction mainland as [|c m IH]; [exists [], 0%nat; split; [constructor|reflexivity]|].
      inversion HF as [|? ? Hc Hm]; subst. destruct (IH Hm) as (sbc & n & F & E).
      destruct (one_cell inside wkt s_length cs_area covered intersects inter covered_area sched HP opt w c Hw Hc)
        as (a & lines & s & cost & C1 & C2 & C3 & n' & C4).
      exists (s :: sbc), (max n n'). split.
      - constructor; auto. exists a, lines, cost. auto.
      - intros fuel Hf. cbn [mapM]. rewrite C4 by lia. cbn [bind]. rewrite E by lia. reflexivity. }
    destruct H as (sbc & n & F & E). exists sbc, n. split; auto. intros fuel Hf. specialize (E fuel Hf).
    unfold plan_swaths, generateBestSwaths_cells, sg_generateSwaths_cells, rb_getCovWidth. fold w. destruct (o_sg_alg opt); exact E.
  Qed.
End Swaths.

Lemma headland_parts_eq buffer w cells opt m r m' r' :
  headland_parts buffer w cells opt m r -> headland_parts buffer w cells opt m' r' -> m = m' /\ r = r'.
Proof.
  unfold headland_parts. destruct (o_hg_alg opt); [intros [-> ->] [-> ->]; auto|].
  intros (k & _ & K & -> & ->) (k' & _ & K' & -> & ->). replace k' with k by lia. auto.
Qed.
