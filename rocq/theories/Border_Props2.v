(** Long lines through sets of cells. *)
From Coq Require Import List Arith Lia ZArith Bool Reals Lra.
From Verif Require Import Outcome Num ListAux Point_Model Angle_Model Angle_Spec SwathGen_Model SwathGen_Spec SwathGen_Proofs
  Border_Model Border_Model2 Border_Spec Border_Props.
Import ListNotations.
Open Scope R_scope.

Lemma merge_extent f (r : list rcell) : forall (ps : list rpoint) a b, extent f ps a b ->
  (forall c, In c r -> concat c <> []) ->
  extent f (ps ++ concat (concat r)) (fold_left (fun m x => Rmin m (env_min f x)) r a) (fold_left (fun m x => Rmax m (env_max f x)) r b).
Proof.
  induction r as [|c r IH]; intros ps a b E NE.
  - simpl. rewrite app_nil_r. exact E.
  - cbn [concat fold_left]. rewrite concat_app, app_assoc. apply IH; [|intros x Hx; apply NE; right; auto].
    destruct (env_extent f c (NE c (or_introl eq_refl))) as [(p & Hp & Ep) [(q & Hq & Eq) B]].
    destruct E as [(p' & Hp' & Ep') [(q' & Hq' & Eq') B']].
    set (m := env_min f c) in *. set (M := env_max f c) in *.
    split; [|split].
    + destruct (Rle_dec a m).
      * exists p'. rewrite Rmin_left by auto. split; auto. apply in_or_app; auto.
      * exists p. rewrite Rmin_right by lra. split; auto. apply in_or_app; auto.
    + destruct (Rle_dec b M).
      * exists q. rewrite Rmax_right by auto. split; auto. apply in_or_app; auto.
      * exists q'. rewrite Rmax_left by lra. split; auto. apply in_or_app; auto.
    + pose proof (Rmin_l a m). pose proof (Rmin_r a m). pose proof (Rmax_l b M). pose proof (Rmax_r b M).
      intros x Hx. apply in_app_or in Hx. destruct Hx as [Hx|Hx]; [specialize (B' x Hx)|specialize (B x Hx)]; lra.
Qed.

Lemma points_filter (cs : list rcell) : concat (concat (filter has_points cs)) = concat (concat cs).
Proof.
  induction cs as [|c cs IH]; auto. cbn [filter]. unfold has_points at 1.
  destruct (concat c) eqn:E; cbn [concat]; rewrite ?concat_app, ?E, IH; auto.
Qed.

Lemma cells_env f (cs : list rcell) : concat (concat cs) <> [] ->
  extent f (concat (concat cs)) (cells_env_min f cs) (cells_env_max f cs).
Proof.
  intro NE. rewrite <- points_filter in *. unfold cells_env_min, cells_env_max.
  assert (P : forall c, In c (filter has_points cs) -> concat c <> []).
  { intros c Hc. apply filter_In in Hc. destruct Hc as [_ Hc]. unfold has_points in Hc. intro E. rewrite E in Hc. discriminate. }
  destruct (filter has_points cs) as [|c r]; [exfalso; apply NE; auto|].
  cbn [concat]. rewrite concat_app. apply merge_extent; [|intros; apply P; right; auto].
  apply env_extent, P. left; auto.
Qed.

(** C311.  From a point of the box around all cells, the long lines go at least as far as
    every point of the box, whatever cells lie between. *)
Theorem ray_reaches_cells : forall (cs : list rcell) (p : pt) ang x0 x1 y0 y1,
  extent px (concat (concat cs)) x0 x1 -> extent py (concat (concat cs)) y0 y1 -> in_box x0 x1 y0 y1 p ->
  exists q a b, cells_createSemiLongLine cs p ang = [p; q] /\ cells_createStraightLongLine cs p ang = [a; b] /\
    px q = px p + (x1 - x0 + (y1 - y0)) * cos ang /\ py q = py p + (x1 - x0 + (y1 - y0)) * sin ang /\
    px b = px q /\ py b = py q /\ px a + px b = 2 * px p /\ py a + py b = 2 * py p /\
    forall r, in_box x0 x1 y0 y1 r -> dist2 p r <= dist2 p q.
Proof.
  intros cs p ang x0 x1 y0 y1 EX EY B.
  assert (NE : concat (concat cs) <> []).
  { intros E. rewrite E in EX. destruct EX as [[r [[] _]] _]. }
  assert (L : cells_getMinSafeLength cs = cell_getMinSafeLength (concat cs)).
  { unfold cells_getMinSafeLength, cell_getMinSafeLength.
    destruct (extent_unique px _ _ _ _ _ (cells_env px cs NE) (env_extent px (concat cs) NE)) as [-> ->].
    destruct (extent_unique py _ _ _ _ _ (cells_env py cs NE) (env_extent py (concat cs) NE)) as [-> ->]. reflexivity. }
  unfold cells_createSemiLongLine, cells_createStraightLongLine. rewrite L.
  exact (ray_reaches (concat cs) p ang x0 x1 y0 y1 EX EY B).
Qed.
Print Assumptions ray_reaches_cells.

(** The lines of a set of cells reach beyond those of each of its cells. *)
Theorem ray_cells_longer : forall (cs : list rcell) (c : rcell) (p : pt) ang q q',
  In c cs -> concat c <> [] ->
  cells_createSemiLongLine cs p ang = [p; q] -> cell_createSemiLongLine c p ang = [p; q'] -> dist2 p q' <= dist2 p q.
Proof.
  intros cs c p ang q q' Hc Nc E E'.
  assert (Sub : forall x, In x (concat c) -> In x (concat (concat cs))).
  { intros x Hx. apply in_concat in Hx. destruct Hx as (r & Hr & Hx). apply in_concat. exists r. split; auto.
    apply in_concat. exists c. auto. }
  assert (NE : concat (concat cs) <> []).
  { intro Z. destruct (concat c) as [|x l]; [apply Nc; auto|]. specialize (Sub x (or_introl eq_refl)). rewrite Z in Sub. destruct Sub. }
  assert (G : forall f, 0 <= env_max f c - env_min f c <= cells_env_max f cs - cells_env_min f cs).
  { intro f. destruct (env_extent f c Nc) as [(u & Hu & Eu) [(v & Hv & Ev) B]].
    destruct (cells_env f cs NE) as [_ [_ B']]. pose proof (B' u (Sub u Hu)). pose proof (B' v (Sub v Hv)). pose proof (B u Hu). lra. }
  injection E as <-. injection E' as <-. unfold cells_getMinSafeLength, cell_getMinSafeLength.
  set (m := env_max px c - env_min px c + (env_max py c - env_min py c)).
  set (M := cells_env_max px cs - cells_env_min px cs + (cells_env_max py cs - cells_env_min py cs)).
  assert (0 <= m <= M) by (pose proof (G px); pose proof (G py); unfold m, M; lra).
  assert (D : forall t, dist2 p (pointFromAngle p ang t) = t * t).
  { intro t. unfold dist2, pointFromAngle, p_getPointFromAngle; cbn [px py]. simpl.
    pose proof (sin2_cos2 ang) as SC. unfold Rsqr in SC.
    refine (_ : @eq R _ _). transitivity (t * t * (sin ang * sin ang + cos ang * cos ang)); [ring|rewrite SC; ring]. }
  rewrite !D. apply Rmult_le_compat; lra.
Qed.
Print Assumptions ray_cells_longer.

Example ray_reaches_cells_ex :
  let P x y := mkPoint (N := RNum) x y 0 in
  let cs := [[[P 0 0; P 4 0; P 4 3]]; []; [[P 7 1; P 9 1; P 9 5]]] in
  exists q q', cells_createSemiLongLine cs (P 1 1) 0 = [P 1 1; q] /\ px q = 15 /\
    cell_createSemiLongLine [[P 0 0; P 4 0; P 4 3]] (P 1 1) 0 = [P 1 1; q'] /\ px q' = 8.
Proof.
  intros P cs.
  destruct (ray_reaches_cells cs (P 1 1) 0 0 9 0 5) as (q & a & b & E & _ & X & _).
  - split; [exists (P 0 0); split; [now left|reflexivity]|].
    split; [exists (P 9 1); split; [do 4 right; now left|reflexivity]|].
    intros p [<-|[<-|[<-|[<-|[<-|[<-|[]]]]]]]; cbn [px P]; lra.
  - split; [exists (P 0 0); split; [now left|reflexivity]|].
    split; [exists (P 9 5); split; [do 5 right; now left|reflexivity]|].
    intros p [<-|[<-|[<-|[<-|[<-|[<-|[]]]]]]]; cbn [py P]; lra.
  - split; cbn [px py P]; lra.
  - destruct ray_reaches_ex as (q' & E' & X'). exists q, q'. split; [exact E|].
    split; [rewrite X, cos_0; cbn [px P]; lra|]. auto.
Qed.

(** Without points the lines do not leave their point. *)
Theorem ray_without_cells : forall (cs : list rcell) (p : pt) ang, concat (concat cs) = [] ->
  exists q a b, cells_createSemiLongLine cs p ang = [p; q] /\ cells_createStraightLongLine cs p ang = [a; b] /\
    dist2 p q = 0 /\ dist2 p a = 0 /\ dist2 p b = 0 /\
    forall f, cells_env_min f cs = 0 /\ cells_env_max f cs = 0.
Proof.
  intros cs p ang E.
  assert (F : filter has_points cs = []).
  { clear ang. induction cs as [|c cs IH]; auto. cbn [concat] in E. rewrite concat_app in E. apply app_eq_nil in E.
    destruct E as [E1 E2]. cbn [filter]. unfold has_points at 1. rewrite E1. auto. }
  assert (L : cells_getMinSafeLength cs = 0) by (unfold cells_getMinSafeLength, cells_env_min, cells_env_max; rewrite F; ring).
  unfold cells_createSemiLongLine, cells_createStraightLongLine. rewrite L. do 3 eexists. split; [reflexivity|]. split; [reflexivity|].
  assert (D : forall t, dist2 p (pointFromAngle p t 0) = 0).
  { intro t. unfold dist2, pointFromAngle, p_getPointFromAngle; cbn [px py]. simpl. refine (_ : @eq R _ _). ring. }
  rewrite !D. repeat split; auto; intros; unfold cells_env_min, cells_env_max; rewrite F; auto.
Qed.
Print Assumptions ray_without_cells.

Example ray_without_cells_ex : concat (concat [[]; [[]; []]]) = @nil pt.
Proof. reflexivity. Qed.
