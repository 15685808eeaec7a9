(** Theorems about swaths of moved, turned and scaled cells (properties C294 to C298). *)
From Coq Require Import List Arith ZArith Lia Bool Reals Lra Psatz Permutation.
From Verif Require Import Outcome ListAux Num Swath_Model Swath_Props Point_Model Angle_Model Angle_Spec Angle_Proofs Angle_Proofs2.
From Verif Require Import Objective_Model SwathGen_Model SwathGen_Spec SwathGen_Spec2 SwathGen_Proofs SwathGen_Proofs2 SwathGen_Proofs3 SwathGen_Props.
From Verif Require Import Best_Model Best_Props Decomp_Proofs.
Import ListNotations.
Open Scope R_scope.

(** C294.  The lines laid over a turned and moved cell, at the turned angle, are the turned and
    moved lines: same number, same order, same ends; and the search for them fails for one
    exactly when it fails for the other. *)
Theorem swath_lines_moved : forall fuel ov a w poly t u v, concat poly <> [] ->
  sg_lines fuel ov (a + t) w (map (map (rigid t u v)) poly) =
  do ls <- sg_lines fuel ov a w poly; Ok (map (map (rigid t u v)) ls).
Proof. exact lines_rigid. Qed.
Print Assumptions swath_lines_moved.

Example swath_lines_moved_ex : concat (rect 2 3) <> [] /\ exists ls, sg_lines 3 false (0 + PI / 2) 1 (map (map (rigid (PI / 2) 5 7)) (rect 2 3)) = Ok ls /\ length ls = 3%nat.
Proof.
  split; [discriminate|]. rewrite swath_lines_moved by discriminate. destruct generated_swaths_ex as (_ & ls & E & L). rewrite E.
  cbn [bind]. eexists. split; [reflexivity|]. rewrite map_length. exact L.
Qed.

(** C295.  Scaling the cell and the width scales the lines. *)
Theorem swath_lines_zoomed : forall fuel ov a w poly k, 0 < k -> concat poly <> [] ->
  sg_lines fuel ov a (k * w) (map (map (zoom k)) poly) =
  do ls <- sg_lines fuel ov a w poly; Ok (map (map (zoom k)) ls).
Proof. exact lines_zoom. Qed.
Print Assumptions swath_lines_zoomed.

Example swath_lines_zoomed_ex : 0 < 2 /\ exists ls, sg_lines 3 false 0 (2 * 1) (map (map (zoom 2)) (rect 2 3)) = Ok ls /\ length ls = 3%nat.
Proof.
  split; [lra|]. rewrite swath_lines_zoomed by (try lra; discriminate). destruct generated_swaths_ex as (_ & ls & E & L). rewrite E.
  cbn [bind]. eexists. split; [reflexivity|]. rewrite map_length. exact L.
Qed.

Lemma across_opp a p : across_of (a + PI) p = - across_of a p.
Proof. unfold across_of. rewrite neg_cos, neg_sin. ring. Qed.
Lemma along_opp a p : along (a + PI) p = - along a p.
Proof. unfold along. rewrite neg_cos, neg_sin. ring. Qed.

(** C296.  At the opposite angle there are as many lines, laid from the other border of the cell
    and driven the other way; they are in the middles of the same strips if the width divides the
    height of the cell. *)
Theorem swath_lines_opposite : forall ov a w poly x0 x1 y0 y1 fuel ls, 0 < w ->
  extent (along a) (concat poly) x0 x1 -> extent (across_of a) (concat poly) y0 y1 ->
  sg_lines fuel ov a w poly = Ok ls ->
  exists ls', sg_lines fuel ov (a + PI) w poly = Ok ls' /\ length ls' = length ls /\
    (forall k line, nth_error ls' k = Some line -> exists p q, line = [p; q] /\
       across_of a p = y1 - (INR k + / 2) * w /\ across_of a q = y1 - (INR k + / 2) * w /\
       along a q <= x0 /\ x1 <= along a p) /\
    (y1 - y0 = INR (length ls) * w -> forall k k' line line', nth_error ls k = Some line -> nth_error ls' k' = Some line' ->
       (k + k' + 1 = length ls)%nat -> forall p q, In p line -> In q line' -> across_of a p = across_of a q).
Proof.
  intros ov a w poly x0 x1 y0 y1 fuel ls Hw HX HY E.
  assert (HX' : extent (along (a + PI)) (concat poly) (- x1) (- x0)) by (apply (extent_opp (along a)); auto; intro; apply along_opp).
  assert (HY' : extent (across_of (a + PI)) (concat poly) (- y1) (- y0)) by (apply (extent_opp (across_of a)); auto; intro; apply across_opp).
  pose proof (box_ok _ _ _ _ _ _ HX HY) as [B1 B2].
  destruct (ys_count ov (y1 - y0) w Hw) as (n & EY & _).
  rewrite (lines_eq a w poly _ _ _ _ HX HY) in E.
  assert (F : (n <= fuel)%nat).
  { destruct (le_lt_dec n fuel) as [H|H]; auto. exfalso.
    destruct (sg_curve_ys RNum fuel ov (y1 - y0) w (sg_curve_y0 RNum w)) as [ys| | |] eqn:Q; try discriminate.
    assert (Mono : forall f ov (H w y : R) ys, sg_curve_ys RNum f ov H w y = Ok ys -> (length ys <= f)%nat /\ forall f', (f <= f')%nat -> sg_curve_ys RNum f' ov H w y = Ok ys).
    { clear. induction f as [|f IH]; intros ov H w y ys E; cbn [sg_curve_ys] in E.
      - destruct (nltb RNum _ H) eqn:T; [discriminate|]. injection E as <-. split; [simpl; lia|]. intros f' _.
        destruct f'; cbn [sg_curve_ys]; rewrite T; reflexivity.
      - destruct (nltb RNum _ H) eqn:T.
        + destruct (sg_curve_ys RNum f ov H w (nadd RNum y w)) as [ys'| | |] eqn:R; try discriminate. cbn [bind] in E. injection E as <-.
          destruct (IH _ _ _ _ _ R) as [L M]. split; [exact (le_n_S _ _ L)|]. intros [|f'] Hf; [exfalso; lia|]. cbn [sg_curve_ys]. rewrite T, M by lia. reflexivity.
        + injection E as <-. split; [simpl; lia|]. intros f' _. destruct f'; cbn [sg_curve_ys]; rewrite T; reflexivity. }
    destruct (Mono _ _ _ _ _ _ Q) as [L M]. assert (fuel <= n)%nat as Hf by lia. specialize (M n Hf). rewrite (EY n (le_n n)) in M. injection M as <-.
    rewrite map_length, seq_length in L. lia. }
  rewrite EY in E by auto. cbn [bind] in E. injection E as <-.
  rewrite (lines_eq (a + PI) w poly _ _ _ _ HX' HY').
  replace (- y0 - - y1) with (y1 - y0) by ring. rewrite EY by auto. cbn [bind].
  eexists. split; [reflexivity|]. split; [rewrite !map_length; auto|].
  assert (G : forall A (f : R -> A) k z, nth_error (map f (map (fun i => (INR i + / 2) * w) (seq 0 n))) k = Some z -> (k < n)%nat /\ z = f ((INR k + / 2) * w)).
  { intros A f k z H. assert (K : (k < n)%nat).
    { assert (Q : nth_error (map f (map (fun i => (INR i + / 2) * w) (seq 0 n))) k <> None) by congruence. apply nth_error_Some in Q.
      rewrite !map_length, seq_length in Q. auto. }
    split; auto. rewrite map_map, nth_error_map, (nth_error_nth' _ 0%nat) in H by (rewrite seq_length; auto).
    rewrite seq_nth in H by auto. simpl in H. congruence. }
  assert (S' : forall y, exists p q, line_at (a + PI) (- x1) (- x0) (- y1) (- y0) y = [p; q] /\ across_of a p = y1 - y /\ across_of a q = y1 - y /\
     along a q <= x0 /\ x1 <= along a p).
  { intro y. destruct (line_at_shape (a + PI) (- x1) (- x0) (- y1) (- y0) y) as (p & q & L & A1 & A2 & A3 & A4).
    exists p, q. split; auto. rewrite across_opp in A1, A2. rewrite along_opp in A3, A4. repeat split; lra. }
  split.
  - intros k line H. apply G in H. destruct H as [_ ->]. destruct (S' ((INR k + / 2) * w)) as (p & q & L & A). exists p, q. auto.
  - rewrite !map_length, seq_length. intros D k k' line line' H H' K p q Hp Hq. apply G in H. apply G in H'.
    destruct H as [_ ->]. destruct H' as [_ ->].
    destruct (S' ((INR k' + / 2) * w)) as (p1 & q1 & L & A1 & A2 & _). rewrite L in Hq.
    destruct (line_at_shape a x0 x1 y0 y1 ((INR k + / 2) * w)) as (p2 & q2 & L2 & A3 & A4 & _). rewrite L2 in Hp.
    assert (across_of a p = y0 + (INR k + / 2) * w) by (destruct Hp as [<-|[<-|[]]]; auto).
    assert (across_of a q = y1 - (INR k' + / 2) * w) by (destruct Hq as [<-|[<-|[]]]; auto).
    rewrite <- K, !plus_INR in D. simpl in D. nra.
Qed.
Print Assumptions swath_lines_opposite.

Example swath_lines_opposite_ex : 0 < 1 /\ extent (along 0) (concat (rect 2 3)) 0 2 /\ extent (across_of 0) (concat (rect 2 3)) 0 3 /\
  exists ls, sg_lines 3 false 0 1 (rect 2 3) = Ok ls /\ 3 - 0 = INR (length ls) * 1.
Proof.
  destruct (rect_extent 2 3); try lra. split; [lra|]. split; auto. split; auto.
  destruct generated_swaths_ex as (_ & ls & E & L). exists ls. split; auto. rewrite L. simpl. lra.
Qed.

Lemma append_carry (wkt : pt -> pt) (g : pt -> pt) w : (forall p, wkt (g p) = g (wkt p)) -> forall lines l,
  swaths_append_lines (fun w => Rleb w 0) 0 wkt (map (carry g) l) (map (map g) lines) w MAINLAND =
  do r <- swaths_append_lines (fun w => Rleb w 0) 0 wkt l lines w MAINLAND; Ok (map (carry g) r).
Proof.
  intros C. unfold swaths_append_lines. induction lines as [|line lines IH]; intro l; cbn [foldM map]; [reflexivity|].
  unfold swaths_append_line at 1 3, swath_new, swath_setWidth. destruct (Rleb w 0); cbn [bind]; [reflexivity|].
  rewrite <- IH. f_equal. rewrite map_app. cbn [map]. f_equal. f_equal. unfold carry. cbn.
  rewrite map_length, !map_map. f_equal. apply map_ext. auto.
Qed.

(** C297.  Swaths: if clipping and the text round trip of a line commute with the motion, the
    swaths of the moved cell are the moved swaths, with the same numbers, widths and types. *)
Theorem swaths_moved : forall inside wkt fuel ov a w poly t u v, concat poly <> [] ->
  (forall ls, inside (map (map (rigid t u v)) ls) (map (map (rigid t u v)) poly) = map (map (rigid t u v)) (inside ls poly)) ->
  (forall p, wkt (rigid t u v p) = rigid t u v (wkt p)) ->
  sg_generateSwaths inside wkt fuel ov (a + t) w (map (map (rigid t u v)) poly) =
  do s <- sg_generateSwaths inside wkt fuel ov a w poly; Ok (map (carry (rigid t u v)) s).
Proof.
  intros inside wkt fuel ov a w poly t u v Hp HI HW. unfold sg_generateSwaths. rewrite lines_rigid by auto.
  destruct (sg_lines fuel ov a w poly) as [ls| | |]; auto. cbn [bind]. rewrite HI. apply (append_carry wkt (rigid t u v) w HW _ []).
Qed.
Print Assumptions swaths_moved.

(** A clipping that commutes with motions and is not the identity: lines of fewer than two
    points, and all lines over an empty cell, are dropped. *)
Definition drop_single (ls : list (list pt)) (c : list (list pt)) : list (list pt) :=
  match c with [] => [] | _ => filter (fun l => Nat.ltb 1 (length l)) ls end.
Lemma drop_single_moves g ls c : drop_single (map (map g) ls) (map (map g) c) = map (map g) (drop_single ls c).
Proof.
  unfold drop_single. destruct c as [|r c]; [reflexivity|]. cbn [map]. induction ls as [|l ls IH]; [reflexivity|]. cbn [map filter].
  rewrite map_length. destruct (Nat.ltb 1 (length l)); cbn [map]; rewrite IH; reflexivity.
Qed.

Example swaths_moved_ex : concat (rect 2 3) <> [] /\
  (forall ls, drop_single (map (map (rigid 1 2 3)) ls) (map (map (rigid 1 2 3)) (rect 2 3)) = map (map (rigid 1 2 3)) (drop_single ls (rect 2 3))).
Proof. split; [discriminate|]. intro ls. apply drop_single_moves. Qed.

Lemma rigid_0 u v poly : map (map (rigid 0 u v)) poly = map (map (fun p : pt => mkPoint (N := RNum) (px p + u) (py p + v) (pz p))) poly.
Proof.
  apply map_ext. intro r. apply map_ext. intro p. unfold rigid. rewrite cos_0, sin_0. apply f_equal3; auto; refine (_ : @eq R _ _); ring.
Qed.

(** C298.  The best swaths of a shifted cell are the shifted best swaths, if the objective does
    not depend on the place. *)
Theorem best_swaths_shifted : forall inside wkt fast cost_fast cost_swaths sched fuel (g : bruteforce) w poly u v,
  concat poly <> [] ->
  (forall ls, inside (map (map (rigid 0 u v)) ls) (map (map (rigid 0 u v)) poly) = map (map (rigid 0 u v)) (inside ls poly)) ->
  (forall p, wkt (rigid 0 u v p) = rigid 0 u v (wkt p)) ->
  (forall a, cost_fast a w (map (map (rigid 0 u v)) poly) = cost_fast a w poly) ->
  (forall s, cost_swaths (map (map (rigid 0 u v)) poly) (map (carry (rigid 0 u v)) s) = cost_swaths poly s) ->
  g_computeBestAngle inside wkt fast cost_fast cost_swaths sched fuel g w (map (map (rigid 0 u v)) poly) =
    g_computeBestAngle inside wkt fast cost_fast cost_swaths sched fuel g w poly /\
  g_generateBestSwaths inside wkt fast cost_fast cost_swaths sched fuel g w (map (map (rigid 0 u v)) poly) =
    do s <- g_generateBestSwaths inside wkt fast cost_fast cost_swaths sched fuel g w poly; Ok (map (carry (rigid 0 u v)) s).
Proof.
  intros inside wkt fast cost_fast cost_swaths sched fuel g w poly u v Hp HI HW HF HS.
  assert (M : forall a, sg_generateSwaths inside wkt fuel (bf_overlap g) a w (map (map (rigid 0 u v)) poly) =
     do s <- sg_generateSwaths inside wkt fuel (bf_overlap g) a w poly; Ok (map (carry (rigid 0 u v)) s)).
  { intro a. rewrite <- (Rplus_0_r a) at 1. apply swaths_moved; auto. }
  assert (A : g_computeBestAngle inside wkt fast cost_fast cost_swaths sched fuel g w (map (map (rigid 0 u v)) poly) =
    g_computeBestAngle inside wkt fast cost_fast cost_swaths sched fuel g w poly).
  { unfold g_computeBestAngle, bf_computeBestAngle. destruct (bf_count (bf_stepAngle g)) as [z| | |]; auto. cbn [bind].
    destruct (z <? 0)%Z; auto. unfold bf_costs. erewrite foldM_ext; [reflexivity|]. intros cs i. cbv beta.
    assert (Q : sg_computeCostOfAngle inside wkt fuel (bf_overlap g) fast cost_fast cost_swaths (INR i * bf_stepAngle g) w (map (map (rigid 0 u v)) poly) =
      sg_computeCostOfAngle inside wkt fuel (bf_overlap g) fast cost_fast cost_swaths (INR i * bf_stepAngle g) w poly).
    { unfold sg_computeCostOfAngle. destruct fast; [apply HF|]. rewrite M.
      destruct (sg_generateSwaths inside wkt fuel (bf_overlap g) (INR i * bf_stepAngle g) w poly); auto. cbn [bind]. apply HS. }
    rewrite Q. reflexivity. }
  split; auto. unfold g_generateBestSwaths. rewrite A.
  destruct (g_computeBestAngle inside wkt fast cost_fast cost_swaths sched fuel g w poly) as [a| | |]; auto. cbn [bind]. apply M.
Qed.
Print Assumptions best_swaths_shifted.

Example best_swaths_shifted_ex : (forall a, (fun (a w : R) (c : rcell) => Ok (cell_getHeight c)) a 1 (map (map (rigid 0 5 7)) (rect 2 3)) =
    (fun (a w : R) (c : rcell) => Ok (cell_getHeight c)) a 1 (rect 2 3)) /\
  (forall s : list (swath rpoint R), (fun (c : rcell) s => Ok (INR (length s))) (map (map (rigid 0 5 7)) (rect 2 3)) (map (carry (rigid 0 5 7)) s) =
     (fun (c : rcell) (s : list (swath rpoint R)) => Ok (INR (length s))) (rect 2 3) s).
Proof.
  split.
  - intros _. rewrite rigid_0. unfold cell_getHeight, env_max, env_min, rect. cbn. f_equal.
    unfold Rmax, Rmin. repeat destruct Rle_dec; lra.
  - intro s. cbv beta. rewrite map_length. reflexivity.
Qed.

(** Angles with the same cosine and sine give the same swaths. *)
Lemma gen_congruent inside wkt fuel ov a b w poly : cos a = cos b -> sin a = sin b ->
  sg_generateSwaths inside wkt fuel ov a w poly = sg_generateSwaths inside wkt fuel ov b w poly.
Proof.
  intros HC HS.
  assert (R1 : forall p, rotateFromPoint origin a p = rotateFromPoint origin b p).
  { intro p. unfold rotateFromPoint. rewrite HC, HS. reflexivity. }
  assert (R2 : cell_rotate origin (- a) poly = cell_rotate origin (- b) poly).
  { unfold cell_rotate. apply map_ext. intro r. apply map_ext. intro p. unfold rotateFromPoint. rewrite !cos_neg, !sin_neg, HC, HS. reflexivity. }
  unfold sg_generateSwaths, sg_lines. rewrite R2.
  destruct (sg_curve_ys _ _ _ _ _ _) as [ys| | |]; auto. cbn [bind]. f_equal. f_equal. apply map_ext. intro y. apply map_ext. auto.
Qed.

(** C299.  Turning a cell by a whole number of steps, when the step divides the full turn, does
    not change the cost of the best swaths. *)
Theorem best_swaths_turned : forall inside wkt cost_fast cost_swaths sched (g : bruteforce) w poly (m j : nat) u v (c c' : list (swath rpoint R) -> R),
  (0 < m)%nat -> INR m * bf_stepAngle g = 2 * PI -> INR m < 2147483648 -> (forall n, Permutation (sched n) (seq 0 n)) ->
  0 < w -> concat poly <> [] ->
  let t := INR j * bf_stepAngle g in
  (forall ls, inside (map (map (rigid t u v)) ls) (map (map (rigid t u v)) poly) = map (map (rigid t u v)) (inside ls poly)) ->
  (forall p, wkt (rigid t u v p) = rigid t u v (wkt p)) ->
  (forall s, cost_swaths poly s = Ok (c s)) -> (forall s, cost_swaths (map (map (rigid t u v)) poly) s = Ok (c' s)) ->
  (forall s, c' (map (carry (rigid t u v)) s) = c s) ->
  exists n s s', forall fuel, (n <= fuel)%nat ->
    g_generateBestSwaths inside wkt false cost_fast cost_swaths sched fuel g w poly = Ok s /\
    g_generateBestSwaths inside wkt false cost_fast cost_swaths sched fuel g w (map (map (rigid t u v)) poly) = Ok s' /\
    c' s' = c s.
Proof.
  intros inside wkt cost_fast cost_swaths sched g w poly m j u v c c' Hm Hst Hr HP Hw Hp t HI HW HC HC' HCC.
  set (step := bf_stepAngle g) in *. pose proof PI_RGT_0 as Pi. assert (M1 : 1 <= INR m) by (apply (le_INR 1 m) in Hm; exact Hm).
  assert (Hs : 0 < step <= 2 * PI) by (split; nra).
  assert (Hrr : 2 * PI / step < 2147483648) by (rewrite <- Hst; replace (INR m * step / step) with (INR m) by (field; lra); auto).
  assert (OG : forall i, on_grid step i <-> (i < m)%nat).
  { intro i. unfold on_grid. rewrite <- Hst. split; intro H.
    - apply Rmult_le_reg_r in H; [|lra]. apply INR_le in H. lia.
    - apply Rmult_le_compat_r; [lra|]. apply le_INR. lia. }
  assert (Hp' : concat (map (map (rigid t u v)) poly) <> []).
  { rewrite concat_map_map. destruct (concat poly); [congruence|discriminate]. }
  destruct (best_swaths inside wkt cost_fast cost_swaths sched g w poly c Hs Hrr HP Hw Hp) as (n & k & s & K1 & K).
  { intros. apply HC. }
  destruct (best_swaths inside wkt cost_fast cost_swaths sched g w (map (map (rigid t u v)) poly) c' Hs Hrr HP Hw Hp') as (n' & k' & s' & K1' & K').
  { intros. apply HC'. }
  exists (max n n'), s, s'. intros fuel Hf. destruct (K fuel ltac:(lia)) as (G & E & L). destruct (K' fuel ltac:(lia)) as (G' & E' & L').
  split; auto. split; auto. fold step in E, E', L, L', K1, K1'.
  assert (Tr : forall i i' : nat, (exists z : nat, (i + j = i' + z * m)%nat) -> forall r,
     sg_generateSwaths inside wkt fuel (bf_overlap g) (INR i * step) w poly = Ok r ->
     sg_generateSwaths inside wkt fuel (bf_overlap g) (INR i' * step) w (map (map (rigid t u v)) poly) = Ok (map (carry (rigid t u v)) r)).
  { intros i i' (z & Z) r R.
    assert (EA : INR i * step + t = INR i' * step + 2 * INR z * PI).
    { apply (f_equal INR) in Z. rewrite !plus_INR, mult_INR in Z. unfold t. nra. }
    rewrite (gen_congruent inside wkt fuel _ (INR i' * step) (INR i * step + t)).
    - rewrite swaths_moved by auto. rewrite R. reflexivity.
    - rewrite EA. symmetry. apply cos_period.
    - rewrite EA. symmetry. apply sin_period. }
  apply OG in K1. apply OG in K1'. apply Rle_antisym.
  - (* the turned s is one of the candidates *)
    set (i' := ((k + j) mod m)%nat). assert (Hi : (i' < m)%nat) by (apply Nat.mod_upper_bound; lia).
    destruct (L' i' (proj2 (OG i') Hi)) as (r & R & Le & _).
    rewrite (Tr k i') with (r := s) in R; auto.
    + injection R as <-. rewrite HCC in Le. exact Le.
    + exists ((k + j) / m)%nat. unfold i'. pose proof (Nat.div_mod (k + j) m ltac:(lia)). lia.
  - set (i := ((k' + (m - 1) * j) mod m)%nat). assert (Hi : (i < m)%nat) by (apply Nat.mod_upper_bound; lia).
    destruct (L i (proj2 (OG i) Hi)) as (r & R & Le & _).
    assert (Z : exists z : nat, (i + j = k' + z * m)%nat).
    { pose proof (Nat.div_mod (k' + (m - 1) * j) m ltac:(lia)) as D. fold i in D.
      assert (D' : (k' + m * j = m * ((k' + (m - 1) * j) / m) + (i + j))%nat) by nia.
      assert (((k' + (m - 1) * j) / m <= j)%nat).
      { apply Nat.lt_succ_r. apply Nat.div_lt_upper_bound; [lia|]. nia. }
      exists (j - (k' + (m - 1) * j) / m)%nat. nia. }
    pose proof (Tr i k' Z r R) as T. rewrite E' in T. injection T as ->. rewrite HCC. exact Le.
Qed.
Print Assumptions best_swaths_turned.

Example best_swaths_turned_ex : exists g : bruteforce, (0 < 4)%nat /\ INR 4 * bf_stepAngle g = 2 * PI /\ INR 4 < 2147483648 /\
  concat (rect 2 3) <> [] /\
  (forall s : list (swath rpoint R), INR (length (map (carry (rigid (INR 1 * bf_stepAngle g) 5 7)) s)) = INR (length s)).
Proof.
  exists (mkBruteForce false (PI / 2)). simpl. split; [lia|]. split; [field|]. split; [lra|]. split; [discriminate|].
  intro s. rewrite map_length. reflexivity.
Qed.
