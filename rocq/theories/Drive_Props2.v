(** Driving a rectangle: from the swath generator to the cost of the route (property C308). *)
From Coq Require Import List Arith ZArith Lia Bool Reals Lra Psatz Permutation Sorted.
From Verif Require Import Outcome ListAux Num Point_Model Angle_Model Angle_Spec Swath_Model Swath_Spec Swath_Proofs Swath_Proofs2 Swath_Props.
From Verif Require Import Objective_Model Objective_Spec Objective_Proofs SwathGen_Model SwathGen_Spec SwathGen_Proofs SwathGen_Proofs2 SwathGen_Props Drive_Spec Drive_Props.
Import ListNotations.
Open Scope R_scope.

Lemma turn_back a (x y : R) : x = (x * cos a + y * sin a) * cos a - (- x * sin a + y * cos a) * sin a /\
  y = (x * cos a + y * sin a) * sin a + (- x * sin a + y * cos a) * cos a.
Proof.
  assert (SC : sin a * sin a + cos a * cos a = 1) by exact (sin2_cos2 a). split.
  - transitivity (x * (sin a * sin a + cos a * cos a)); [rewrite SC; ring|ring].
  - transitivity (y * (sin a * sin a + cos a * cos a)); [rewrite SC; ring|ring].
Qed.
Lemma frame_x a (p : pt) : px p = along a p * cos a - across_of a p * sin a.
Proof. apply (turn_back a (px p) (py p)). Qed.
Lemma frame_y a (p : pt) : py p = along a p * sin a + across_of a p * cos a.
Proof. apply (turn_back a (px p) (py p)). Qed.

(** C308.  The swaths of a rectangle as high as [n] widths, generated along it and driven in
    boustrophedon order, cost [n] lengths and [n - 1] widths; no other way to drive them is cheaper. *)
Theorem rectangle_driven : forall angle inside wkt sort_fn a w poly x0 x1 y0 y1 (n : nat) v p_default p_lt,
  (forall l, std_sorted swath_lt l (sort_fn l)) -> 0 < w -> (0 < n)%nat -> x0 <= x1 -> y1 - y0 = INR n * w ->
  extent (along a) (concat poly) x0 x1 -> extent (across_of a) (concat poly) y0 y1 ->
  clips_rectangle inside a x0 x1 y0 y1 poly -> (forall ls l p, In l (inside ls poly) -> In p l -> wkt p = p) ->
  exists s r, (forall fuel, (n <= fuel)%nat -> sg_generateSwaths inside wkt fuel false a w poly = Ok s) /\ length s = n /\
    genSortedSwaths (fun w => Rleb w 0) 0 p_default p_lt wkt sort_fn Boustrophedon s v = Ok r /\
    dcost angle r = Ok (INR n * (x1 - x0) + INR (n - 1) * w) /\
    forall l' g, Permutation s l' -> Forall2 (same_swath wkt) l' g ->
      exists y, dcost angle g = Ok y /\ INR n * (x1 - x0) + INR (n - 1) * w <= y.
Proof.
  intros angle inside wkt sf a w poly x0 x1 y0 y1 n v pd lt Hs Hw Hn Hx Hy HX HY HC HK.
  assert (N1 : 1 <= INR n) by (apply (le_INR 1); lia).
  destruct (lines_leave_no_gap false a w poly x0 x1 y0 y1 Hw HX HY) as (lines & nn & EL & Lines & _).
  destruct (line_count a w poly x0 x1 y0 y1 Hw HX HY false) as (lines' & EL' & Count & _).
  assert (lines' = lines).
  { pose proof (EL (Nat.max nn (length lines')) ltac:(lia)) as E1. rewrite (EL' (Nat.max nn (length lines')) ltac:(lia)) in E1. injection E1 as E1. exact E1. }
  subst lines'. destruct (Count eq_refl ltac:(nra)) as [C1 C2].
  assert (Ln : length lines = n).
  { rewrite Hy in C1, C2. apply Rmult_lt_reg_r in C1; [|lra]. apply Rmult_le_reg_r in C2; [|lra].
    apply INR_le in C2. assert (INR (length lines) < INR (n + 1)) by (rewrite plus_INR; simpl; lra). apply INR_lt in H. lia. }
  assert (F : Forall2 (cut_level a x0 x1) lines (inside lines poly)).
  { apply HC. intros l I. apply In_nth_error in I. destruct I as [k E]. destruct (Lines k l E) as (p & q & -> & P1 & Q1 & P2 & Q2).
    exists p, q. split; [auto|]. split; [auto|]. split; [auto|]. split; [congruence|]. rewrite P1.
    assert (K : (k < n)%nat) by (rewrite <- Ln; apply nth_error_Some; congruence).
    assert (K' : INR k + 1 <= INR n) by (rewrite <- S_INR; apply le_INR; lia). pose proof (pos_INR k). split; nra. }
  set (ins := inside lines poly) in *.
  destruct (generated_swaths inside wkt false a w poly lines n Hw (EL' n ltac:(lia))) as (s & _ & Ls & Nth). fold ins in Ls, Nth.
  assert (Li : length ins = n) by (rewrite <- (Forall2_length F); auto).
  set (o := mkPoint (N := RNum) (x0 * cos a - (y0 + w / 2) * sin a) (x0 * sin a + (y0 + w / 2) * cos a) 0).
  set (d := mkPoint (N := RNum) ((x1 - x0) * cos a) ((x1 - x0) * sin a) 0).
  set (m := mkPoint (N := RNum) (- sin a) (cos a) 0).
  assert (SC : sin a * sin a + cos a * cos a = 1) by exact (sin2_cos2 a).
  assert (U : unit_across d m) by (split; cbn; [lra|ring]).
  assert (Nd : norm d = x1 - x0).
  { unfold norm. cbn. replace ((x1 - x0) * cos a * ((x1 - x0) * cos a) + (x1 - x0) * sin a * ((x1 - x0) * sin a)) with ((x1 - x0) * (x1 - x0) * (sin a * sin a + cos a * cos a)) by ring.
    rewrite SC, Rmult_1_r. apply sqrt_square. lra. }
  assert (Lin : forall j l, nth_error ins j = Some l -> exists p q, l = [p; q] /\ along a p = x0 /\ along a q = x1 /\
      across_of a p = y0 + (INR j + / 2) * w /\ across_of a q = y0 + (INR j + / 2) * w).
  { intros j l E. assert (exists l0, nth_error lines j = Some l0 /\ cut_level a x0 x1 l0 l) as (l0 & E0 & Cut).
    { clear - F E. revert j E. induction F as [|x y lx ly H F IH]; intros [|j] E; cbn in E; try discriminate; [injection E as <-; exists x; auto|]. apply IH. exact E. }
    destruct Cut as (p & q & p' & q' & -> & -> & A1 & A2 & A3 & A4). destruct (Lines j _ E0) as (p1 & q1 & E1 & B1 & _). injection E1 as <- <-.
    exists p', q'. rewrite A3, A4, B1. auto. }
  assert (Sw : forall j t, nth_error s j = Some t -> exists l, nth_error ins j = Some l /\ t = mkSwath rpoint R (Z.of_nat j) l w true MAINLAND).
  { intros j t E. destruct (nth_error ins j) as [l|] eqn:El.
    - exists l. split; [auto|]. rewrite (Nth j l El) in E. injection E as <-. f_equal.
      rewrite <- (map_id l) at 2. apply map_ext_in. intros p Ip. apply (HK lines l p); auto. eapply nth_error_In. exact El.
    - apply nth_error_None in El. assert (j < length s)%nat by (apply nth_error_Some; congruence). lia. }
  assert (R : rows o d m w true s).
  { intros j t E. destruct (Sw j t E) as (l & El & ->). destruct (Lin j l El) as (p & q & -> & A1 & A2 & B1 & B2).
    exists p, q. rewrite !(frame_x a p), !(frame_y a p), !(frame_x a q), !(frame_y a q), A1, A2, B1, B2. unfold o, d, m. cbn [px py].
    split; [|split; [|split; [|split; [|left; split; reflexivity]]]]; simpl; field. }
  assert (St : StronglySorted (fun a b => (sw_id a < sw_id b)%Z) s).
  { assert (Ids : forall j t, nth_error s j = Some t -> sw_id t = Z.of_nat (0 + j)).
    { intros j t E. destruct (Sw j t E) as (l & _ & ->). reflexivity. }
    clear - Ids. revert Ids. generalize 0%nat. induction s as [|t s IH]; intros b Ids; constructor.
    - apply (IH (S b)). intros j u E. rewrite (Ids (S j) u E). f_equal. lia.
    - apply Forall_forall. intros u I. apply In_nth_error in I. destruct I as [j E]. rewrite (Ids 0%nat t eq_refl), (Ids (S j) u E). lia. }
  assert (Kp : forall t p, In t s -> In p (sw_path t) -> wkt p = p).
  { intros t p I Ip. apply In_nth_error in I. destruct I as [j E]. destruct (Sw j t E) as (l & El & ->). apply (HK lines l p); auto. eapply nth_error_In. exact El. }
  assert (W : Forall (fun t => Rleb (sw_width t) 0 = false) s).
  { apply Forall_forall. intros t I. apply In_nth_error in I. destruct I as [j E]. destruct (Sw j t E) as (l & El & ->). apply Rleb_false. exact Hw. }
  assert (Lsn : length s = n) by lia.
  destruct (rows_cost_orders angle (fun w => Rleb w 0) 0 pd lt wkt sf Hs s s v o d m w true (Rlt_le _ _ Hw) U (Permutation_refl _) St R Kp W) as [(r & G & E) _].
  destruct (boustrophedon_cheapest angle (fun w => Rleb w 0) 0 pd lt wkt sf Hs s s v o d m w true (Rlt_le _ _ Hw) U (Permutation_refl _) St R Kp W) as (r' & x & G' & E' & Best).
  rewrite G in G'. injection G' as <-. rewrite E in E'. injection E' as <-. rewrite Nd, Lsn in *.
  exists s, r. split; [|split; [auto|split; [auto|split; [auto|exact Best]]]].
  intros fuel Hf. destruct (generated_swaths inside wkt false a w poly lines fuel Hw (EL' fuel ltac:(lia))) as (s' & Es & Ls' & Nth'). fold ins in Ls', Nth'.
  rewrite Es. f_equal. apply nth_error_ext. intro j. destruct (nth_error ins j) as [l|] eqn:El; [rewrite (Nth j l El), (Nth' j l El); reflexivity|].
  apply nth_error_None in El. transitivity (@None (swath rpoint RNum)); [|symmetry]; apply nth_error_None;
    (eapply Nat.le_trans; [apply Nat.eq_le_incl|exact El]); [exact Ls'|exact (eq_trans Lsn Ls)].
Qed.
Print Assumptions rectangle_driven.

(** A clipping to the rectangle [rect b h] along the x axis, as asked for. *)
Definition ex_clip (b : R) (ls : list (list pt)) (poly : rcell) : list (list pt) :=
  map (fun l => match l with p :: _ => [mkPoint (N := RNum) 0 (py p) 0; mkPoint (N := RNum) b (py p) 0] | [] => [] end) ls.
Example rectangle_driven_ex : exists inside poly, 3 - 0 = INR 3 * 1 /\
  extent (along 0) (concat poly) 0 2 /\ extent (across_of 0) (concat poly) 0 3 /\ clips_rectangle inside 0 0 2 0 3 poly.
Proof.
  exists (ex_clip 2), (rect 2 3). split; [simpl; ring|]. destruct (rect_extent 2 3 ltac:(lra) ltac:(lra)) as [A B]. split; [exact A|]. split; [exact B|].
  intros ls H. unfold ex_clip. induction ls as [|l ls IH]; cbn [map]; constructor; [|apply IH; intros; apply H; right; auto].
  destruct (H l (or_introl eq_refl)) as (p & q & -> & _). exists p, q. do 2 eexists. split; [reflexivity|]. split; [reflexivity|].
  unfold along, across_of. rewrite sin_0, cos_0. cbn [px py]. repeat split; simpl; ring.
Qed.
