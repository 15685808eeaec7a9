(** Theorems about swath generation, brute force and headlands. *)
From Coq Require Import List Arith ZArith Lia Bool Reals Lra Psatz Permutation.
From Verif Require Import Outcome ListAux Num Swath_Model Swath_Props Point_Model Angle_Model Angle_Spec Angle_Proofs Angle_Proofs2.
From Verif Require Import Objective_Model SwathGen_Model SwathGen_Spec SwathGen_Proofs SwathGen_Proofs2.
Import ListNotations.
Open Scope R_scope.

(** C35: the lines, their places, and that they leave no gap. *)
Theorem lines_leave_no_gap : forall ov a w poly x0 x1 y0 y1,
  0 < w -> extent (along a) (concat poly) x0 x1 -> extent (across_of a) (concat poly) y0 y1 ->
  exists (lines : list (list pt)) (n : nat),
    (forall fuel, (n <= fuel)%nat -> sg_lines fuel ov a w poly = Ok lines) /\
    (forall k line, nth_error lines k = Some line -> exists p q, line = [p; q] /\
       across_of a p = y0 + (INR k + / 2) * w /\ across_of a q = y0 + (INR k + / 2) * w /\
       along a p <= x0 /\ x1 <= along a q) /\
    (forall q, x0 <= along a q <= x1 -> y0 <= across_of a q <= y1 -> y0 < y1 ->
       exists line, In line lines /\ within (w / 2) line q).
Proof.
  intros ov a w poly x0 x1 y0 y1 Hw HX HY.
  pose proof (box_ok _ _ _ _ _ _ HX HY) as [B1 B2].
  destruct (ys_count ov (y1 - y0) w Hw) as (n & E & Hlt & Hge).
  set (lines := map (line_at a x0 x1 y0 y1) (map (fun i => (INR i + / 2) * w) (seq 0 n))).
  assert (Hget : forall k, (k < n)%nat -> nth_error lines k = Some (line_at a x0 x1 y0 y1 ((INR k + / 2) * w))).
  { intros k Hk. unfold lines. rewrite map_map, nth_error_map, (nth_error_nth' _ 0%nat) by (rewrite seq_length; auto).
    rewrite seq_nth by auto. auto. }
  exists lines, n. split; [|split].
  - intros fuel Hf. rewrite (lines_eq a w poly x0 x1 y0 y1 HX HY), E by auto. auto.
  - intros k line Hk.
    assert (Hn : (k < n)%nat).
    { assert (k < length lines)%nat by (apply nth_error_Some; congruence). unfold lines in *. rewrite !map_length, seq_length in *. auto. }
    rewrite (Hget k Hn) in Hk. injection Hk as <-.
    destruct (line_at_shape a x0 x1 y0 y1 ((INR k + / 2) * w)) as (p & q & A1 & A2 & A3 & A4 & A5).
    exists p, q. split; auto. split; auto. split; auto. split; lra.
  - intros q Hx Hy Hlt01.
    destruct (ceil_nat ((across_of a q - y0) / w)) as (k & C1 & C2 & C3 & C4).
    assert (Eq : across_of a q - y0 = (across_of a q - y0) / w * w) by (field; lra).
    set (t := (across_of a q - y0) / w) in *.
    assert (Hn0 : (0 < n)%nat).
    { apply Nat.neq_0_lt_0. intro E0. rewrite E0 in Hge. simpl in Hge. destruct ov; lra. }
    destruct (Rle_dec t 0) as [Ht|Ht].
    + exists (line_at a x0 x1 y0 y1 ((INR 0 + / 2) * w)). split; [apply (nth_error_In _ 0), Hget; auto|].
      apply (line_within a poly); auto. simpl.
      assert (across_of a q - y0 = 0) by (assert (t * w <= 0) by nra; lra).
      replace (across_of a q - (y0 + (0 + / 2) * w)) with (- (w / 2)) by lra. rewrite Rabs_Ropp, Rabs_right; lra.
    + apply Rnot_le_lt in Ht. specialize (C3 Ht).
      assert (Hk : (0 < k)%nat). { apply Nat.neq_0_lt_0. intro E0. rewrite E0 in C2. simpl in C2. lra. }
      destruct k as [|k]; [lia|]. rewrite S_INR in *.
      assert (Hkn : (k < n)%nat).
      { apply Nat.nle_gt. intro Hle. apply le_INR in Hle.
        assert (INR n * w <= INR k * w) by (apply Rmult_le_compat_r; lra).
        assert (INR k * w < t * w) by (apply Rmult_lt_compat_r; lra). destruct ov; lra. }
      exists (line_at a x0 x1 y0 y1 ((INR k + / 2) * w)). split; [apply (nth_error_In _ k), Hget; auto|].
      apply (line_within a poly); auto.
      assert (INR k * w < t * w) by (apply Rmult_lt_compat_r; lra).
      assert (t * w <= (INR k + 1) * w) by (apply Rmult_le_compat_r; lra).
      apply Rabs_le. lra.
Qed.
Print Assumptions lines_leave_no_gap.

(** A 2 x 3 rectangle. *)
Definition rect (b h : R) : rcell :=
  [[mkPoint (N := RNum) 0 0 0; mkPoint (N := RNum) b 0 0; mkPoint (N := RNum) b h 0; mkPoint (N := RNum) 0 h 0; mkPoint (N := RNum) 0 0 0]].

Lemma rect_extent b h : 0 <= b -> 0 <= h -> extent (along 0) (concat (rect b h)) 0 b /\ extent (across_of 0) (concat (rect b h)) 0 h.
Proof.
  intros Hb Hh. unfold along, across_of. rewrite cos_0, sin_0. split; (split; [|split]).
  - exists (mkPoint (N := RNum) 0 0 0). split; [left; auto|simpl; ring].
  - exists (mkPoint (N := RNum) b 0 0). split; [right; left; auto|simpl; ring].
  - intros p [<-|[<-|[<-|[<-|[<-|[]]]]]]; simpl; lra.
  - exists (mkPoint (N := RNum) 0 0 0). split; [left; auto|simpl; ring].
  - exists (mkPoint (N := RNum) b h 0). split; [right; right; left; auto|simpl; ring].
  - intros p [<-|[<-|[<-|[<-|[<-|[]]]]]]; simpl; lra.
Qed.

Example lines_leave_no_gap_ex :
  0 < 1 /\ extent (along 0) (concat (rect 2 3)) 0 2 /\ extent (across_of 0) (concat (rect 2 3)) 0 3 /\ 0 < 3.
Proof. destruct (rect_extent 2 3); try lra. split; [lra|]. split; auto. split; auto. lra. Qed.

(** C36, as far as it holds: for a positive width the loop ends, with the
    smallest number of lines whose strips reach the upper border (without
    overlap), and one strip of half a width more (with overlap). *)
Theorem line_count : forall a w poly x0 x1 y0 y1,
  0 < w -> extent (along a) (concat poly) x0 x1 -> extent (across_of a) (concat poly) y0 y1 ->
  forall ov, exists lines, (forall fuel, (length lines <= fuel)%nat -> sg_lines fuel ov a w poly = Ok lines) /\
    (ov = false -> y0 < y1 -> (INR (length lines) - 1) * w < y1 - y0 <= INR (length lines) * w) /\
    (ov = false -> y0 = y1 -> lines = []) /\
    (ov = true -> (INR (length lines) - 3 / 2) * w < y1 - y0 <= (INR (length lines) - / 2) * w).
Proof.
  intros a w poly x0 x1 y0 y1 Hw HX HY ov.
  pose proof (box_ok _ _ _ _ _ _ HX HY) as [B1 B2].
  destruct (ys_count ov (y1 - y0) w Hw) as (n & E & Hlt & Hge).
  exists (map (line_at a x0 x1 y0 y1) (map (fun i => (INR i + / 2) * w) (seq 0 n))).
  rewrite !map_length, seq_length. split; [|split; [|split]].
  - intros fuel Hf. rewrite (lines_eq a w poly x0 x1 y0 y1 HX HY), E by auto. auto.
  - intros -> Hy. destruct n as [|n]; [simpl in Hge; lra|]. rewrite S_INR in *. specialize (Hlt n). split; [|lra].
    assert (n < S n)%nat by lia. specialize (Hlt H). lra.
  - intros -> Hy. destruct n as [|n]; auto. specialize (Hlt 0%nat ltac:(lia)). simpl in Hlt. lra.
  - intros ->. destruct n as [|n]; [simpl in Hge; lra|]. rewrite S_INR in *. split; [|lra].
    specialize (Hlt n ltac:(lia)). lra.
Qed.
Print Assumptions line_count.

Example line_count_ex : 0 < 1 /\ extent (along 0) (concat (rect 2 3)) 0 2 /\ extent (across_of 0) (concat (rect 2 3)) 0 3.
Proof. destruct (rect_extent 2 3); try lra. split; [lra|]. auto. Qed.

(** C36 is false: for a width of 0 or less, a cell of positive height and no
    overlap, no number of rounds is enough; this decides termination. *)
Theorem nonpositive_width_hangs : forall (ov : bool) a w poly x0 x1 y0 y1,
  w <= 0 -> extent (along a) (concat poly) x0 x1 -> extent (across_of a) (concat poly) y0 y1 ->
  (y0 + (if ov then - (w / 2) else 0) < y1 -> forall fuel, sg_lines fuel ov a w poly = Hang) /\
  (y1 <= y0 + (if ov then - (w / 2) else 0) -> forall fuel, sg_lines fuel ov a w poly = Ok []).
Proof.
  intros ov a w poly x0 x1 y0 y1 Hw HX HY. split; intros H fuel; rewrite (lines_eq a w poly x0 x1 y0 y1 HX HY).
  - rewrite ys_hang; auto. unfold thr, sg_curve_y0. simpl. destruct ov; lra.
  - rewrite ys_none; auto. unfold thr, sg_curve_y0. simpl. destruct ov; lra.
Qed.
Print Assumptions nonpositive_width_hangs.

Theorem generation_terminates_refuted : exists a w poly, forall (inside : list (list rpoint) -> rcell -> list (list rpoint)) (wkt : rpoint -> rpoint) fuel,
  sg_generateSwaths inside wkt fuel false a w poly = Hang.
Proof.
  exists 0, 0, (rect 2 3). intros. destruct (rect_extent 2 3) as [HX HY]; try lra.
  destruct (nonpositive_width_hangs false 0 0 _ _ _ _ _ ltac:(lra) HX HY) as [H _].
  unfold sg_generateSwaths. rewrite H by lra. reflexivity.
Qed.
Print Assumptions generation_terminates_refuted.

Example nonpositive_width_hangs_ex : 0 <= 0 /\ extent (along 0) (concat (rect 2 3)) 0 2 /\
  extent (across_of 0) (concat (rect 2 3)) 0 3 /\ 0 + 0 < 3.
Proof. destruct (rect_extent 2 3); try lra. split; [lra|]. split; auto. split; auto. lra. Qed.

(** C37: the lines of the overlap setting are those of the other one and at most
    one more, beyond the upper border by at least half a width. *)
Theorem overlap_adds_only_outside : forall a w poly x0 x1 y0 y1,
  0 < w -> extent (along a) (concat poly) x0 x1 -> extent (across_of a) (concat poly) y0 y1 -> y0 < y1 ->
  exists base extra n,
    (forall fuel, (n <= fuel)%nat -> sg_lines fuel false a w poly = Ok base /\ sg_lines fuel true a w poly = Ok (base ++ extra)) /\
    (length extra <= 1)%nat /\
    forall line p, In line extra -> In p line -> y1 + w / 2 <= across_of a p.
Proof.
  intros a w poly x0 x1 y0 y1 Hw HX HY Hy.
  destruct (ys_count false (y1 - y0) w Hw) as (n & E & Hlt & Hge).
  destruct (ys_count true (y1 - y0) w Hw) as (m & E' & Hlt' & Hge').
  assert (Hnm : (n <= m <= n + 1)%nat).
  { split; apply Nat.nlt_ge; intro H.
    - specialize (Hlt m H). lra.
    - specialize (Hlt' (n + 1)%nat H). rewrite plus_INR in Hlt'. simpl in Hlt'. lra. }
  set (f := fun i => line_at a x0 x1 y0 y1 ((INR i + / 2) * w)).
  exists (map f (seq 0 n)), (map f (seq n (m - n))), m. split; [|split].
  - intros fuel Hf. rewrite !(lines_eq a w poly x0 x1 y0 y1 HX HY), E, E' by lia. cbn [bind]. rewrite !map_map. split; auto.
    fold f. rewrite <- map_app. replace m with (n + (m - n))%nat at 1 by lia. rewrite seq_app. reflexivity.
  - rewrite map_length, seq_length. lia.
  - intros line p Hl Hp. apply in_map_iff in Hl. destruct Hl as (i & <- & Hi). apply in_seq in Hi.
    destruct (line_at_shape a x0 x1 y0 y1 ((INR i + / 2) * w)) as (p1 & p2 & A1 & A2 & A3 & _).
    unfold f in Hp. rewrite A1 in Hp. destruct Hi as [Hi _]. apply le_INR in Hi.
    assert (INR n * w <= INR i * w) by (apply Rmult_le_compat_r; lra).
    destruct Hp as [<-|[<-|[]]]; lra.
Qed.
Print Assumptions overlap_adds_only_outside.

Example overlap_adds_only_outside_ex : 0 < 1 /\ extent (along 0) (concat (rect 2 (7 / 4))) 0 2 /\
  extent (across_of 0) (concat (rect 2 (7 / 4))) 0 (7 / 4) /\ 0 < 7 / 4.
Proof. destruct (rect_extent 2 (7 / 4)); try lra. split; [lra|]. split; auto. split; auto. lra. Qed.

(** Hence the setting has no effect on a field of height 7/4 and width 1, although
    7/4 is no multiple of 1: the line it adds does not touch the field. *)
Theorem overlap_setting_refuted : exists a w poly y0 y1 base over,
  extent (across_of a) (concat poly) y0 y1 /\ (forall k : Z, y1 - y0 <> IZR k * w) /\
  (forall fuel, (5 <= fuel)%nat -> sg_lines fuel false a w poly = Ok base /\ sg_lines fuel true a w poly = Ok over) /\
  forall line, In line over -> ~ In line base -> forall p, In p line -> y1 < across_of a p.
Proof.
  destruct (rect_extent 2 (7 / 4)) as [HX HY]; try lra.
  exists 0, 1, (rect 2 (7 / 4)), 0, (7 / 4).
  set (f := fun i => line_at 0 0 2 0 (7 / 4) ((INR i + / 2) * 1)).
  exists (map f (seq 0 2)), (map f (seq 0 3)). split; auto. split; [|split].
  - intros k Hk. assert (H : IZR (4 * k) = IZR 7) by (rewrite mult_IZR; simpl; lra). apply eq_IZR in H. lia.
  - intros fuel Hf. rewrite !(lines_eq 0 1 _ _ _ _ _ HX HY).
    rewrite (ys_run false (7 / 4 - 0) 1 2 fuel), (ys_run true (7 / 4 - 0) 1 3 fuel).
    + cbn [bind]. rewrite !map_map. split; f_equal; apply map_ext; intro i; unfold f; f_equal; unfold sg_curve_y0; simpl; refine (_ : @eq R _ _); field.
    + lia.
    + intros i Hi. destruct i as [|[|[|i]]]; [| | |lia]; unfold thr, sg_curve_y0; simpl; lra.
    + unfold thr, sg_curve_y0; simpl; lra.
    + lia.
    + intros i Hi. destruct i as [|[|i]]; [| |lia]; unfold thr, sg_curve_y0; simpl; lra.
    + unfold thr, sg_curve_y0; simpl; lra.
  - intros line Hl Hn p Hp. change (seq 0 3) with (seq 0 2 ++ [2%nat]) in Hl. rewrite map_app in Hl. apply in_app_iff in Hl.
    destruct Hl as [Hl|[<-|[]]]; [tauto|].
    destruct (line_at_shape 0 0 2 0 (7 / 4) ((INR 2 + / 2) * 1)) as (p1 & p2 & A1 & A2 & A3 & _).
    unfold f in Hp. rewrite A1 in Hp. simpl in A2, A3. destruct Hp as [<-|[<-|[]]]; lra.
Qed.
Print Assumptions overlap_setting_refuted.

(** C100: the lines that meet the field leave a strip below half a width at its
    upper border uncovered, and no more than that. *)
Theorem covered_up_to_half_a_width : forall ov a w poly x0 x1 y0 y1,
  0 < w -> extent (along a) (concat poly) x0 x1 -> extent (across_of a) (concat poly) y0 y1 ->
  exists lines n, (forall fuel, (n <= fuel)%nat -> sg_lines fuel ov a w poly = Ok lines) /\
    forall q, x0 <= along a q <= x1 -> y0 <= across_of a q -> across_of a q <= y1 - w / 2 ->
      exists line, In line lines /\ within (w / 2) line q /\ forall p, In p line -> y0 <= across_of a p <= y1.
Proof.
  intros ov a w poly x0 x1 y0 y1 Hw HX HY.
  destruct (ys_count ov (y1 - y0) w Hw) as (n & E & Hlt & Hge).
  set (f := fun i => line_at a x0 x1 y0 y1 ((INR i + / 2) * w)).
  exists (map f (seq 0 n)), n. split.
  - intros fuel Hf. rewrite (lines_eq a w poly x0 x1 y0 y1 HX HY), E by auto. cbn [bind]. rewrite map_map. auto.
  - intros q Hx Hy Hy'.
    destruct (ceil_nat ((across_of a q - y0) / w)) as (k0 & C1 & C2 & C3 & C4).
    assert (Eq : across_of a q - y0 = (across_of a q - y0) / w * w) by (field; lra).
    set (t := (across_of a q - y0) / w) in *.
    assert (Ht0 : 0 <= t) by (unfold t; apply Rmult_le_pos; [lra|left; apply Rinv_0_lt_compat; auto]).
    set (k := pred k0).
    assert (Hk : INR k <= t <= INR k + 1).
    { unfold k. destruct k0 as [|k0]; [simpl in *; lra|]. simpl pred. rewrite S_INR in *. destruct (Rle_dec t 0); [specialize (C4 r); lia|].
      specialize (C3 ltac:(lra)). lra. }
    assert (Hk1 : INR k * w <= t * w) by (apply Rmult_le_compat_r; lra).
    assert (Hk2 : t * w <= (INR k + 1) * w) by (apply Rmult_le_compat_r; lra).
    assert (Hkn : (k < n)%nat).
    { apply Nat.nle_gt. intro Hle. apply le_INR in Hle.
      assert (INR n * w <= INR k * w) by (apply Rmult_le_compat_r; lra). destruct ov; lra. }
    exists (f k). split; [apply in_map, in_seq; lia|]. split.
    + apply (line_within a poly); auto. apply Rabs_le. lra.
    + intros p Hp. destruct (line_at_shape a x0 x1 y0 y1 ((INR k + / 2) * w)) as (p1 & p2 & A1 & A2 & A3 & _).
      unfold f in Hp. rewrite A1 in Hp. pose proof (pos_INR k).
      assert (0 <= INR k * w) by (apply Rmult_le_pos; lra).
      destruct Hp as [<-|[<-|[]]]; lra.
Qed.
Print Assumptions covered_up_to_half_a_width.

Example covered_up_to_half_a_width_ex : 0 < 1 /\ extent (along 0) (concat (rect 2 3)) 0 2 /\ extent (across_of 0) (concat (rect 2 3)) 0 3.
Proof. destruct (rect_extent 2 3); try lra. split; [lra|]. auto. Qed.

Theorem clipped_lines_cover_refuted : exists a w poly q lines, extent (along a) (concat poly) 0 2 /\ extent (across_of a) (concat poly) 0 (7 / 5) /\
  0 <= along a q <= 2 /\ 0 <= across_of a q <= 7 / 5 /\
  (forall ov fuel, (5 <= fuel)%nat -> sg_lines fuel ov a w poly = Ok lines) /\
  forall line, In line lines -> (exists p, In p line /\ across_of a p <= 7 / 5) -> ~ within (w / 2) line q.
Proof.
  destruct (rect_extent 2 (7 / 5)) as [HX HY]; try lra.
  set (f := fun i => line_at 0 0 2 0 (7 / 5) ((INR i + / 2) * 1)).
  exists 0, 1, (rect 2 (7 / 5)), (mkPoint (N := RNum) 1 (13 / 10) 0), (map f (seq 0 2)).
  split; auto. split; auto. unfold along, across_of. rewrite cos_0, sin_0. simpl px. simpl py.
  split; [lra|]. split; [lra|]. split.
  - intros ov fuel Hf. rewrite (lines_eq 0 1 _ _ _ _ _ HX HY). rewrite (ys_run ov (7 / 5 - 0) 1 2 fuel).
    + cbn [bind]. rewrite map_map. f_equal. apply map_ext. intro i. unfold f; f_equal; unfold sg_curve_y0; simpl; refine (_ : @eq R _ _); field.
    + lia.
    + intros i Hi. destruct i as [|[|i]]; [| |lia]; unfold thr, sg_curve_y0; simpl; destruct ov; lra.
    + unfold thr, sg_curve_y0; simpl; destruct ov; lra.
  - intros line Hl (p & Hp & Hle) (s & Hs & Hd). simpl in Hl. destruct Hl as [<-|[<-|[]]].
    + destruct (line_at_shape 0 0 2 0 (7 / 5) ((INR 0 + / 2) * 1)) as (p1 & p2 & A1 & A2 & A3 & _).
      unfold f in Hs. rewrite A1 in Hs. unfold across_of in A2, A3. rewrite cos_0, sin_0 in A2, A3. simpl in A2, A3.
      simpl in Hs. destruct Hs as [(t & Ht & Hx & Hy & Hz)|[]]. 
      assert (Hsy : py s = 1 / 2) by nra.
      unfold dist2 in Hd. simpl in Hd. rewrite Hsy in Hd. pose proof (Rle_0_sqr (1 - px s)) as Hq. unfold Rsqr in Hq. lra.
    + destruct (line_at_shape 0 0 2 0 (7 / 5) ((INR 1 + / 2) * 1)) as (p1 & p2 & A1 & A2 & A3 & _).
      unfold f in Hp. rewrite A1 in Hp. unfold across_of in A2, A3. rewrite cos_0, sin_0 in A2, A3. simpl in A2, A3.
      destruct Hp as [<-|[<-|[]]]; lra.
Qed.
Print Assumptions clipped_lines_cover_refuted.

(** C101: the swaths of the result. *)
Theorem generated_swaths : forall inside wkt ov a w poly lines fuel,
  0 < w -> sg_lines fuel ov a w poly = Ok lines ->
  exists s, sg_generateSwaths inside wkt fuel ov a w poly = Ok s /\ length s = length (inside lines poly) /\
    forall i line, nth_error (inside lines poly) i = Some line ->
      nth_error s i = Some (mkSwath rpoint R (Z.of_nat i) (map wkt line) w true MAINLAND).
Proof.
  intros inside wkt ov a w poly lines fuel Hw E. unfold sg_generateSwaths. rewrite E. cbn [bind].
  destruct (append_lines_ids rpoint R (fun w => Rleb w 0) 0 wkt MAINLAND w (inside lines poly) []) as [_ H].
  destruct H as (n & H1 & H2 & H3); [apply Rleb_false; auto|]. rewrite H1. exists n. auto.
Qed.
Print Assumptions generated_swaths.

Example generated_swaths_ex : 0 < 1 /\ exists lines, sg_lines 3 false 0 1 (rect 2 3) = Ok lines /\ length lines = 3%nat.
Proof.
  split; [lra|]. destruct (rect_extent 2 3) as [HX HY]; try lra. rewrite (lines_eq 0 1 _ _ _ _ _ HX HY).
  rewrite (ys_run false (3 - 0) 1 3 3).
  - cbn [bind]. eexists. split; [reflexivity|]. rewrite !map_length. reflexivity.
  - lia.
  - intros i Hi. destruct i as [|[|[|i]]]; [| | |lia]; unfold thr, sg_curve_y0; simpl; lra.
  - unfold thr, sg_curve_y0; simpl; lra.
Qed.

(** C101: over several cells, each cell has its own swaths, in order. *)
Theorem generated_swaths_of_cells : forall inside wkt ov a w polys fuel r,
  sg_generateSwaths_cells inside wkt fuel ov a w polys = Ok r <->
  length r = length polys /\ forall i poly s, nth_error polys i = Some poly -> nth_error r i = Some s ->
    sg_generateSwaths inside wkt fuel ov a w poly = Ok s.
Proof.
  intros inside wkt ov a w polys fuel. unfold sg_generateSwaths_cells.
  induction polys as [|p polys IH]; intro r.
  - simpl. split.
    + intro H. injection H as <-. split; auto. intros [|i] ? ? H; discriminate.
    + intros [H _]. destruct r; [auto|discriminate].
  - cbn [mapM]. split.
    + intro H. destruct (sg_generateSwaths inside wkt fuel ov a w p) as [s| | |] eqn:Es; try discriminate. cbn [bind] in H.
      destruct (mapM _ polys) as [r'| | |] eqn:Er; try discriminate. cbn [bind] in H. injection H as <-.
      destruct (proj1 (IH r') eq_refl) as [L G]. split; [simpl; lia|].
      intros [|i] poly s' H1 H2; [injection H1 as <-; injection H2 as <-; auto|]. apply (G i); auto.
    + intros [L G]. destruct r as [|s r]; [discriminate|]. rewrite (G 0%nat p s) by auto. cbn [bind].
      replace (mapM _ polys) with (Ok r); [reflexivity|]. symmetry. apply IH. split; [simpl in L; lia|].
      intros i poly s' H1 H2. apply (G (S i)); auto.
Qed.
Print Assumptions generated_swaths_of_cells.
Example generated_swaths_of_cells_ex : exists r, sg_generateSwaths_cells (fun ls _ => ls) (fun p => p) 3 false 0 1 [rect 2 3; rect 2 3] = Ok r /\
  map (@List.length (swath rpoint R)) r = [3; 3]%nat.
Proof.
  destruct generated_swaths_ex as (W & lines & E & L).
  destruct (generated_swaths (fun ls _ => ls) (fun p => p) false 0 1 (rect 2 3) lines 3 W E) as (s & G & N & _).
  exists [s; s]. split; [|cbn [map]; now rewrite N, L]. apply generated_swaths_of_cells. split; [reflexivity|].
  intros [|[|[|i]]] poly t P_ T_; cbn in P_, T_; try discriminate; injection P_ as <-; injection T_ as <-; exact G.
Qed.

(** C38. *)
Theorem brute_force_best : forall (cost : R -> outcome R) (c : R -> R) step sched,
  0 < step <= 2 * PI -> 2 * PI / step < 2147483648 ->
  (forall n, Permutation (sched n) (seq 0 n)) ->
  (forall i : nat, INR (i + 1) * step <= 2 * PI -> cost (INR i * step) = Ok (c (INR i * step))) ->
  exists k : nat, INR (k + 1) * step <= 2 * PI /\ bf_computeBestAngle cost step sched = Ok (INR k * step) /\
    (forall j : nat, INR (j + 1) * step <= 2 * PI -> c (INR k * step) <= c (INR j * step)) /\
    (forall j, (j < k)%nat -> c (INR k * step) < c (INR j * step)).
Proof.
  intros cost c step sched Hs Hr HP Hc.
  destruct (bf_count_ok step) as (_ & _ & HN); [lra|auto|].
  assert (HI : forall i, (i < bf_n step)%nat <-> INR (i + 1) * step <= 2 * PI).
  { intro i. rewrite plus_INR. simpl. split; intro H.
    - assert (Hi : INR (i + 1) <= INR (bf_n step)) by (apply le_INR; lia). rewrite plus_INR in Hi. simpl in Hi.
      apply (Rmult_le_compat_r step) in Hi; lra.
    - apply Nat.nle_gt. intro Hle. apply le_INR in Hle.
      assert ((INR (bf_n step) + 1) * step <= (INR i + 1) * step) by (apply Rmult_le_compat_r; lra). lra. }
  destruct (best_angle_core cost c step sched Hs Hr HP) as (k & K1 & K2 & K3 & K4).
  - intros i Hi. apply Hc. apply HI. auto.
  - exists k. split; [apply HI; auto|]. split; auto. split; auto. intros j Hj. apply K3. apply HI. auto.
Qed.
Print Assumptions brute_force_best.

Example brute_force_best_ex : 0 < PI <= 2 * PI /\ 2 * PI / PI < 2147483648 /\
  (forall n, Permutation (rev (seq 0 n)) (seq 0 n)) /\
  (forall i : nat, INR (i + 1) * PI <= 2 * PI -> (fun a => Ok (- a)) (INR i * PI) = Ok (- (INR i * PI))).
Proof.
  pose proof PI_RGT_0. split; [lra|]. split; [|split; auto].
  - replace (2 * PI / PI) with 2 by (field; lra). lra.
  - intro n. apply Permutation_sym, Permutation_rev.
Qed.

(** C39 is false: exactly the steps in (0, 2 pi] (with a count in int range) are safe. *)
Theorem brute_force_safe_iff : forall (c : R -> R) step sched,
  (forall n, Permutation (sched n) (seq 0 n)) ->
  (exists a, bf_computeBestAngle (fun x => Ok (c x)) step sched = Ok a) <->
  0 < step <= 2 * PI /\ 2 * PI / step < 2147483648.
Proof.
  intros c step sched HP. split.
  - intros (a & H).
    assert (Hs : 0 < step <= 2 * PI).
    { destruct (Rlt_dec 0 step); [|exfalso; apply (best_angle_bad (fun x => Ok (c x)) step sched) with (a := a); auto; lra].
      destruct (Rle_dec step (2 * PI)); [auto|exfalso; apply (best_angle_bad (fun x => Ok (c x)) step sched) with (a := a); auto; lra]. }
    split; auto. destruct (Rlt_dec (2 * PI / step) 2147483648); auto.
    rewrite best_angle_step_small in H by lra. discriminate.
  - intros [Hs Hr]. destruct (best_angle_core (fun x => Ok (c x)) c step sched Hs Hr HP) as (k & _ & E & _); eauto.
Qed.
Print Assumptions brute_force_safe_iff.

Example brute_force_safe_iff_ex : exists a, bf_computeBestAngle (fun x => Ok (- x)) (PI / 2) (fun n => seq 0 n) = Ok a.
Proof.
  apply brute_force_safe_iff; [intro; apply Permutation_refl|]. pose proof PI_RGT_0.
  split; [lra|]. replace (2 * PI / (PI / 2)) with 4 by (field; lra). lra.
Qed.

Theorem brute_force_outcomes : forall (cost : R -> outcome R) step sched,
  (forall n, Permutation (sched n) (seq 0 n)) ->
  (2 * PI < step -> bf_computeBestAngle cost step sched = UB) /\
  (step = 0 -> bf_computeBestAngle cost step sched = UB) /\
  (- (2 * PI) <= step < 0 -> 2 * PI / (- step) < 2147483648 -> bf_computeBestAngle cost step sched = Throw LengthError).
Proof.
  intros cost step sched HP. split; [intro; apply best_angle_large; auto|]. split.
  - intros ->. unfold bf_computeBestAngle, bf_count. destruct (Req_EM_T 0 0); [auto|lra].
  - intros. apply best_angle_negative; lra.
Qed.
Print Assumptions brute_force_outcomes.

Example brute_force_outcomes_ex : 2 * PI < 7 /\ - (2 * PI) <= -1 < 0 /\ 2 * PI / (- -1) < 2147483648.
Proof.
  pose proof PI_4. pose proof PI2_3_2. pose proof PI_ineq 2 as HP. unfold tg_alt, PI_tg in HP. simpl in HP.
  assert (PI < 3.5) by lra. split; [lra|]. split; [unfold PI2 in *; lra|]. replace (2 * PI / - -1) with (2 * PI) by field. lra.
Qed.

Theorem brute_force_safe_refuted : exists step, forall cost, bf_computeBestAngle cost step (fun n => seq 0 n) = UB.
Proof.
  exists (2 * PI + 1). intro. apply best_angle_large; [lra|]. intro. apply Permutation_refl.
Qed.
Print Assumptions brute_force_safe_refuted.

(** C40. *)
Theorem headland_rings_out2in : forall (CS : Type) (buffer : CS -> R -> CS) field w n, (0 <= n)%Z ->
  length (hl_generateHeadlandSwaths buffer field w n true) = Z.to_nat n /\
  forall i, (Z.of_nat i < n)%Z -> nth_error (hl_generateHeadlandSwaths buffer field w n true) i =
    Some (buffer field (- ((INR i + / 2) * w))).
Proof.
  intros. unfold hl_generateHeadlandSwaths. rewrite map_length, seq_length. split; auto.
  intros i Hi. rewrite nth_error_map, (nth_error_nth' _ 0%nat) by (rewrite seq_length; lia). rewrite seq_nth by lia. simpl.
  f_equal. f_equal. ring.
Qed.
Print Assumptions headland_rings_out2in.

Example headland_rings_out2in_ex : nth_error (hl_generateHeadlandSwaths (fun c d => c + d) 9 1 3 true) 1 = Some (9 + - ((INR 1 + / 2) * 1)).
Proof. apply (headland_rings_out2in R (fun c d => c + d) 9 1 3); lia. Qed.

(** Inside out: the same rings in reverse, given that growing the innermost ring
    step by step gives back the rings of direct shrinking. *)
Theorem headland_rings_in2out : forall (CS : Type) (buffer : CS -> R -> CS) field w n, (1 <= n)%Z ->
  (forall d, w / 2 <= d -> buffer (buffer field (- (d + w))) w = buffer field (- d)) ->
  0 < w ->
  hl_generateHeadlandSwaths buffer field w n false = rev (hl_generateHeadlandSwaths buffer field w n true).
Proof.
  intros CS buffer field w n Hn Hb Hw.
  assert (E : exists m, n = Z.of_nat (S m)) by (exists (pred (Z.to_nat n)); lia). destruct E as (m & ->).
  unfold hl_generateHeadlandSwaths. rewrite Nat2Z.id. replace (Z.to_nat (Z.of_nat (S m) - 1)) with m by lia.
  assert (E0 : - w * (IZR (Z.of_nat (S m)) - / 2) = - w * (INR m + / 2)).
  { rewrite <- INR_IZR_INZ, S_INR. field. }
  rewrite E0. clear E0 Hn. rewrite <- map_rev.
  change (seq 0 (S m)) with (seq 0 (1 + m)). replace (1 + m)%nat with (m + 1)%nat by lia. rewrite seq_app, rev_app_distr. simpl.
  f_equal. induction m as [|m IH]; auto.
  cbn [hl_outwards]. replace (S m) with (m + 1)%nat at 3 by lia. rewrite seq_app, rev_app_distr. simpl seq. simpl rev. cbn [app map].
  rewrite S_INR.
  replace (buffer (buffer field (- w * (INR m + 1 + / 2))) w) with (buffer field (- w * (INR m + / 2))).
  - f_equal. apply IH.
  - replace (- w * (INR m + 1 + / 2)) with (- ((INR m + / 2) * w + w)) by field. rewrite Hb; [f_equal; ring|].
    pose proof (pos_INR m). assert (0 <= INR m * w) by (apply Rmult_le_pos; lra). lra.
Qed.
Print Assumptions headland_rings_in2out.

(** Intervals: buffer moves both ends, an interval that closes is gone. *)
Definition ibuf (c : option (R * R)) (d : R) : option (R * R) :=
  match c with
  | Some (a, b) => if Rle_dec (a - d) (b + d) then Some (a - d, b + d) else None
  | None => None
  end.

Example headland_rings_in2out_ex : (1 <= 2)%Z /\ 0 < 1 /\
  (forall d, 1 / 2 <= d -> (fun (c : R) d => c + d) ((fun (c : R) d => c + d) 9 (- (d + 1))) 1 = 9 + - d).
Proof. split; [lia|]. split; [lra|]. intros. lra. Qed.

(** C40 is false as stated: n = 0 still gives a ring inside out; and where a part
    is too thin for the innermost ring the inside-out setting drops its outer ring. *)
Theorem headland_rings_refuted_zero : forall (CS : Type) (buffer : CS -> R -> CS) field w,
  hl_generateHeadlandSwaths buffer field w 0 true = [] /\
  hl_generateHeadlandSwaths buffer field w 0 false = [buffer field (w / 2)].
Proof. intros. unfold hl_generateHeadlandSwaths. simpl. split; auto. do 2 f_equal. field. Qed.
Print Assumptions headland_rings_refuted_zero.

Theorem headland_rings_refuted : exists w field n,
  nth_error (hl_generateHeadlandSwaths ibuf field w n true) 0 = Some (Some (1 / 2, 3 / 2)) /\
  hl_generateHeadlandSwaths ibuf field w n false = [None; None].
Proof.
  exists 1, (Some (0, 2)), 2%Z. unfold hl_generateHeadlandSwaths. simpl.
  destruct (Rle_dec (0 - -(1) * (0 + / 2)) (2 + -(1) * (0 + / 2))); [|lra].
  destruct (Rle_dec (0 - -(1) * (2 - / 2)) (2 + -(1) * (2 - / 2))); [lra|].
  split; auto. do 3 f_equal; field.
Qed.
Print Assumptions headland_rings_refuted.

(** C41. *)
Theorem headland_pick_iff : forall (CS : Type) (buffer : CS -> R -> CS) field w n,
  ((1 <= n)%Z -> hl_pick buffer field w n = Ok (buffer field (- ((IZR (n / 2) + / 2) * w)))) /\
  ((n <= 0)%Z -> hl_pick buffer field w n = UB).
Proof.
  intros CS buffer field w n. unfold hl_pick. split; intro Hn.
  - assert (H : (0 <= n / 2 < n)%Z) by (split; [apply Z.div_pos; lia|apply Z.div_lt; lia]).
    destruct (Z.ltb_spec (n / 2) 0); [lia|]. unfold vec_index.
    destruct (headland_rings_out2in CS buffer field w n ltac:(lia)) as [_ G]. rewrite G by lia.
    rewrite INR_IZR_INZ, Z2Nat.id by lia. reflexivity.
  - destruct (Z.ltb_spec (n / 2) 0); auto.
    assert (H1 : (n / 2 <= 0)%Z) by (apply Z.div_le_upper_bound; lia). replace (n / 2)%Z with 0%Z by lia.
    unfold hl_generateHeadlandSwaths. replace (Z.to_nat n) with 0%nat by lia. reflexivity.
Qed.
Print Assumptions headland_pick_iff.

Example headland_pick_iff_ex : hl_pick (fun c d => c + d) 9 1 3 = Ok (15 / 2) /\ hl_pick (fun c d => c + d) 9 1 0 = UB.
Proof.
  split; [|apply headland_pick_iff; lia]. rewrite (proj1 (headland_pick_iff R (fun c d => c + d) 9 1 3)) by lia.
  f_equal. change (3 / 2)%Z with 1%Z. lra.
Qed.

Theorem headland_pick_refuted : exists n, forall (CS : Type) (buffer : CS -> R -> CS) field w,
  hl_pick buffer field w n = UB.
Proof. exists 0%Z. intros. apply headland_pick_iff. lia. Qed.
Print Assumptions headland_pick_refuted.
