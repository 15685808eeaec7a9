(** Theorems about choosing the best swaths (property C271). *)
From Coq Require Import List Arith ZArith Lia Bool Reals Lra Permutation.
From Verif Require Import Outcome ListAux Num Swath_Model Point_Model Angle_Model Angle_Spec Angle_Proofs.
From Verif Require Import Objective_Model SwathGen_Model SwathGen_Spec SwathGen_Proofs SwathGen_Proofs2 SwathGen_Props Best_Model.
Import ListNotations.
Open Scope R_scope.

(** The angle [i * step] is one of those below a full turn by at least a step. *)
Definition on_grid (step : R) (i : nat) : Prop := INR (i + 1) * step <= 2 * PI.

Lemma gen_enough inside wkt ov a w poly : 0 < w -> concat poly <> [] ->
  exists n s, forall fuel, (n <= fuel)%nat -> sg_generateSwaths inside wkt fuel ov a w poly = Ok s.
Proof.
  intros Hw Hp.
  destruct (lines_leave_no_gap ov a w poly _ _ _ _ Hw (env_extent (along a) poly Hp) (env_extent (across_of a) poly Hp)) as (lines & n & E & _).
  destruct (generated_swaths inside wkt ov a w poly lines n Hw (E n (le_n n))) as (s & Gs & _).
  exists n, s. intros fuel Hf. unfold sg_generateSwaths in *. rewrite E in * by auto. auto.
Qed.

Lemma gen_enough_grid inside wkt ov w poly step : 0 < w -> concat poly <> [] -> forall m,
  exists n (sw : nat -> list (swath rpoint R)), forall fuel, (n <= fuel)%nat -> forall i, (i < m)%nat ->
    sg_generateSwaths inside wkt fuel ov (INR i * step) w poly = Ok (sw i).
Proof.
  intros Hw Hp. induction m as [|m (n & sw & IH)].
  - exists 0%nat, (fun _ => []). intros; lia.
  - destruct (gen_enough inside wkt ov (INR m * step) w poly Hw Hp) as (n' & s & E).
    exists (max n n'), (fun i => if Nat.eq_dec i m then s else sw i). intros fuel Hf i Hi.
    destruct (Nat.eq_dec i m) as [->|Ne]; [apply E; lia|apply IH; lia].
Qed.

Lemma grid_bound step : 0 < step -> 2 * PI / step < 2147483648 -> exists m, forall i, on_grid step i -> (i < m)%nat.
Proof.
  intros Hs Hr. destruct (bf_count_ok step Hs Hr) as (_ & _ & HN). exists (bf_n step). intros i H. unfold on_grid in H.
  rewrite plus_INR in H. simpl in H. apply Nat.nle_gt. intro Hle. apply le_INR in Hle.
  assert ((INR (bf_n step) + 1) * step <= (INR i + 1) * step) by (apply Rmult_le_compat_r; lra). lra.
Qed.

(** C271: without a cost of angles, the swaths chosen are the first of least cost among those that
    generateSwaths makes at the angles of the grid, with the same overlap setting. *)
Theorem best_swaths : forall inside wkt cost_fast cost_swaths sched (g : bruteforce) w poly (c : list (swath rpoint R) -> R),
  0 < bf_stepAngle g <= 2 * PI -> 2 * PI / bf_stepAngle g < 2147483648 -> (forall n, Permutation (sched n) (seq 0 n)) ->
  0 < w -> concat poly <> [] ->
  (forall i fuel s, on_grid (bf_stepAngle g) i -> sg_generateSwaths inside wkt fuel (bf_overlap g) (INR i * bf_stepAngle g) w poly = Ok s ->
     cost_swaths poly s = Ok (c s)) ->
  exists n k s, on_grid (bf_stepAngle g) k /\ forall fuel, (n <= fuel)%nat ->
    g_generateBestSwaths inside wkt false cost_fast cost_swaths sched fuel g w poly = Ok s /\
    sg_generateSwaths inside wkt fuel (bf_overlap g) (INR k * bf_stepAngle g) w poly = Ok s /\
    forall j, on_grid (bf_stepAngle g) j -> exists t,
      sg_generateSwaths inside wkt fuel (bf_overlap g) (INR j * bf_stepAngle g) w poly = Ok t /\ c s <= c t /\
      ((j < k)%nat -> c s < c t).
Proof.
  intros inside wkt cost_fast cost_swaths sched g w poly c Hs Hr HP Hw Hp Hc.
  destruct (grid_bound (bf_stepAngle g)) as [m Hm]; [lra|auto|].
  destruct (gen_enough_grid inside wkt (bf_overlap g) w poly (bf_stepAngle g) Hw Hp m) as (n & sw & E).
  set (cost := fun fuel ang => sg_computeCostOfAngle inside wkt fuel (bf_overlap g) false cost_fast cost_swaths ang w poly).
  set (ca := fun ang => match sg_generateSwaths inside wkt n (bf_overlap g) ang w poly with Ok s => c s | _ => 0 end).
  assert (CA : forall i, on_grid (bf_stepAngle g) i -> ca (INR i * bf_stepAngle g) = c (sw i)).
  { intros i Hi. unfold ca. rewrite E by auto. reflexivity. }
  assert (CC : forall fuel, (n <= fuel)%nat -> forall i, on_grid (bf_stepAngle g) i -> cost fuel (INR i * bf_stepAngle g) = Ok (ca (INR i * bf_stepAngle g))).
  { intros fuel Hf i Hi. unfold cost, sg_computeCostOfAngle. rewrite E by auto. cbn [bind]. rewrite CA by auto.
    apply (Hc i fuel); auto. }
  destruct (brute_force_best (cost n) ca (bf_stepAngle g) sched Hs Hr HP (CC n (le_n n))) as (k & K1 & K2 & K3 & K4).
  exists n, k, (sw k). split; [exact K1|]. intros fuel Hf.
  destruct (brute_force_best (cost fuel) ca (bf_stepAngle g) sched Hs Hr HP (CC fuel Hf)) as (k' & L1 & L2 & L3 & L4).
  assert (k' = k).
  { destruct (Nat.lt_trichotomy k k') as [H|[H|H]]; auto.
    - pose proof (L4 _ H). pose proof (K3 _ L1). lra.
    - pose proof (K4 _ H). pose proof (L3 _ K1). lra. }
  subst k'. split; [|split].
  - unfold g_generateBestSwaths, g_computeBestAngle. fold (cost fuel). rewrite L2. cbn [bind]. unfold g_generateSwaths. apply E; auto.
  - apply E; auto.
  - intros j Hj. exists (sw j). split; [apply E; auto|]. rewrite <- !CA by auto. split; [apply K3; auto|]. intro H. apply K4; auto.
Qed.
Print Assumptions best_swaths.

(** C271: with a cost of angles, they are the swaths at the first angle of least such cost. *)
Theorem best_swaths_fast : forall inside wkt cost_fast cost_swaths sched (g : bruteforce) w poly (c : R -> R),
  0 < bf_stepAngle g <= 2 * PI -> 2 * PI / bf_stepAngle g < 2147483648 -> (forall n, Permutation (sched n) (seq 0 n)) ->
  0 < w -> concat poly <> [] ->
  (forall i, on_grid (bf_stepAngle g) i -> cost_fast (INR i * bf_stepAngle g) w poly = Ok (c (INR i * bf_stepAngle g))) ->
  exists n k s, on_grid (bf_stepAngle g) k /\
    (forall fuel, (n <= fuel)%nat ->
       g_generateBestSwaths inside wkt true cost_fast cost_swaths sched fuel g w poly = Ok s /\
       sg_generateSwaths inside wkt fuel (bf_overlap g) (INR k * bf_stepAngle g) w poly = Ok s) /\
    forall j, on_grid (bf_stepAngle g) j -> c (INR k * bf_stepAngle g) <= c (INR j * bf_stepAngle g) /\
      ((j < k)%nat -> c (INR k * bf_stepAngle g) < c (INR j * bf_stepAngle g)).
Proof.
  intros inside wkt cost_fast cost_swaths sched g w poly c Hs Hr HP Hw Hp Hc.
  destruct (brute_force_best (fun ang => cost_fast ang w poly) c (bf_stepAngle g) sched Hs Hr HP Hc) as (k & K1 & K2 & K3 & K4).
  destruct (gen_enough inside wkt (bf_overlap g) (INR k * bf_stepAngle g) w poly Hw Hp) as (n & s & E).
  exists n, k, s. split; [exact K1|]. split.
  - intros fuel Hf. split; [|auto]. unfold g_generateBestSwaths, g_computeBestAngle, sg_computeCostOfAngle. rewrite K2. cbn [bind].
    apply E; auto.
  - intros j Hj. split; [apply K3; auto|apply K4].
Qed.
Print Assumptions best_swaths_fast.

(** C271: over several cells, the best swaths of each of them, in order; each cell has its own angle. *)
Theorem best_swaths_of_cells : forall inside wkt fast cost_fast cost_swaths sched fuel (g : bruteforce) w polys r,
  g_generateBestSwaths_cells inside wkt fast cost_fast cost_swaths sched fuel g w polys = Ok r <->
  Forall2 (fun poly s => g_generateBestSwaths inside wkt fast cost_fast cost_swaths sched fuel g w poly = Ok s) polys r.
Proof.
  intros. unfold g_generateBestSwaths_cells. split; [apply mapM_ok|].
  induction 1 as [|p s ps r E _ IH]; [reflexivity|]. cbn [mapM]. rewrite E. cbn [bind]. rewrite IH. reflexivity.
Qed.
Print Assumptions best_swaths_of_cells.

(** C271: each setting is what was set last, and the other one is kept. *)
Theorem generator_settings : forall (g : bruteforce) v d,
  getAllowOverlap bf_default = false /\ getStepAngle bf_default * 180 = PI /\
  getAllowOverlap (setAllowOverlap g v) = v /\ getStepAngle (setAllowOverlap g v) = getStepAngle g /\
  getStepAngle (setStepAngle g d) = d /\ getAllowOverlap (setStepAngle g d) = getAllowOverlap g.
Proof. intros. unfold getStepAngle, getAllowOverlap, bf_default. cbn. repeat split. field. Qed.
Print Assumptions generator_settings.

(** Two swaths of width 1 on a rectangle 2 x 1.2 with overlap; the cost is the number of swaths. *)
Definition n_cost (_ : rcell) (s : list (swath rpoint R)) : outcome R := Ok (INR (length s)).
Example best_swaths_ex : let g := setStepAngle (setAllowOverlap bf_default true) (2 * PI) in
  0 < bf_stepAngle g <= 2 * PI /\ 2 * PI / bf_stepAngle g < 2147483648 /\ (forall n, Permutation (rev (seq 0 n)) (seq 0 n)) /\
  0 < 1 /\ concat (rect 2 (6 / 5)) <> [] /\
  exists n s, forall fuel, (n <= fuel)%nat ->
    g_generateBestSwaths (fun ls _ => ls) (fun p => p) false (fun _ _ _ => UB) n_cost (fun n => rev (seq 0 n)) fuel g 1 (rect 2 (6 / 5)) = Ok s /\
    length s = 2%nat.
Proof.
  intro g. pose proof PI_RGT_0. assert (H1 : 0 < bf_stepAngle g <= 2 * PI) by (cbn; lra).
  assert (H2 : 2 * PI / bf_stepAngle g < 2147483648) by (cbn; replace (2 * PI / (2 * PI)) with 1 by (field; lra); lra).
  assert (H3 : forall n, Permutation (rev (seq 0 n)) (seq 0 n)) by (intro; apply Permutation_sym, Permutation_rev).
  assert (H4 : 0 < 1) by lra. assert (H5 : concat (rect 2 (6 / 5)) <> []) by discriminate.
  do 5 (split; [assumption|]).
  destruct (best_swaths (fun ls _ => ls) (fun p => p) (fun _ _ _ => UB) n_cost (fun n => rev (seq 0 n)) g 1 (rect 2 (6 / 5)) (fun s => INR (length s)) H1 H2 H3 H4 H5)
    as (n & k & s & K & E); [reflexivity|].
  exists (n + 3)%nat, s. intros fuel Hf. destruct (E fuel ltac:(lia)) as (E1 & E2 & _). split; [exact E1|].
  assert (K0 : k = 0%nat).
  { destruct k; auto. exfalso. unfold on_grid in K. cbn [bf_stepAngle g setStepAngle] in K.
    assert (2 <= INR (S k + 1)) by (apply (le_INR 2); lia). assert (2 * (2 * PI) <= INR (S k + 1) * (2 * PI)) by (apply Rmult_le_compat_r; lra). lra. }
  subst k. cbn [bf_overlap bf_stepAngle g setStepAngle setAllowOverlap] in E2. replace (INR 0 * (2 * PI)) with 0 in E2 by (simpl; lra).
  destruct (rect_extent 2 (6 / 5)) as [HX HY]; try lra.
  assert (L : exists lines, sg_lines fuel true 0 1 (rect 2 (6 / 5)) = Ok lines /\ length lines = 2%nat).
  { rewrite (lines_eq 0 1 _ _ _ _ _ HX HY). rewrite (ys_run true (6 / 5 - 0) 1 2 fuel).
    - cbn [bind]. eexists. split; [reflexivity|]. rewrite !map_length. reflexivity.
    - lia.
    - intros i Hi. destruct i as [|[|i]]; [| |lia]; unfold thr, sg_curve_y0; simpl; lra.
    - unfold thr, sg_curve_y0; simpl; lra. }
  destruct L as (lines & L1 & L2).
  destruct (generated_swaths (fun ls _ => ls) (fun p => p) true 0 1 (rect 2 (6 / 5)) lines fuel H4 L1) as (t & G & N & _).
  rewrite G in E2. injection E2 as <-. rewrite N. exact L2.
Qed.
Example best_swaths_fast_ex : let g := setStepAngle bf_default PI in
  0 < bf_stepAngle g <= 2 * PI /\ 2 * PI / bf_stepAngle g < 2147483648 /\ concat (rect 2 3) <> [] /\
  (forall i, on_grid (bf_stepAngle g) i -> (fun a (_ : R) (_ : rcell) => Ok (- a)) (INR i * bf_stepAngle g) 1 (rect 2 3) = Ok (- (INR i * bf_stepAngle g))).
Proof.
  pose proof PI_RGT_0. cbn. split; [lra|]. split; [replace (2 * PI / PI) with 2 by (field; lra); lra|]. split; [discriminate|reflexivity].
Qed.
Example best_swaths_of_cells_ex : exists fuel s, length s = 2%nat /\
  g_generateBestSwaths_cells (fun ls _ => ls) (fun p => p) false (fun _ _ _ => UB) n_cost (fun n => rev (seq 0 n)) fuel
    (setStepAngle (setAllowOverlap bf_default true) (2 * PI)) 1 [rect 2 (6 / 5); rect 2 (6 / 5)] = Ok [s; s].
Proof.
  destruct best_swaths_ex as (_ & _ & _ & _ & _ & n & s & E). destruct (E n (le_n n)) as [E1 E2].
  exists n, s. split; [exact E2|]. apply best_swaths_of_cells. auto.
Qed.
