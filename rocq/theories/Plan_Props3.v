(** When the one-call planner finds no swaths (src/fields2cover.cpp). *)
From Coq Require Import String List Arith ZArith Lia Bool Reals Lra Permutation.
From Verif Require Import Outcome ListAux Num Swath_Model Graph_Model Graph_Spec Graph2D_Model Graph2D_Spec Route_Model RoutePlanner_Model
  RoutePlanner_Spec Point_Model Angle_Model Angle_Spec Objective_Model Objective_Spec SwathGen_Model SwathGen_Spec SwathGen_Proofs SwathGen_Props
  Robot_Model Transform_Model Plan_Model Plan_Spec Plan_Proofs Plan_Proofs2 Plan_Proofs3 Plan_Props Ogr_Model Ogr_Spec Ogr_Proofs Ogr_Proofs2.
Import ListNotations.
Open Scope R_scope.

Section Plan.
  Variable buffer : list rcell -> R -> list rcell.
  Variable inside : list (list rpoint) -> rcell -> list (list rpoint).
  Variable wkt : rpoint -> rpoint.
  Variable s_length : rswath -> R.
  Variable cs_area : list rcell -> R.
  Variable covered : list rcell -> rswath -> list rcell.
  Variable intersects : list rcell -> list rcell -> bool.
  Variable inter : list rcell -> list rcell -> list rcell.
  Variable covered_area : list rcell -> list rswath -> rswath -> R.
  Variable sched : nat -> list nat.
  Variable keq : rpoint -> rpoint -> bool.
  Variable near : rpoint -> rpoint -> rpoint -> bool.
  Variable node_order : list rpoint -> list rpoint.
  Variable edge_order : edges_t -> list (nat * nat).
  Variable solver : graph2d rpoint -> nat -> option (list nat).
  Notation plan fuel := (planCovRoute buffer inside wkt s_length cs_area covered intersects inter covered_area fuel sched
    keq near node_order edge_order solver).
  Hypothesis HP : forall n, Permutation (sched n) (seq 0 n).
  Hypothesis Heq : equivalence keq.
  Hypothesis Hnear : forall a b n a' b' n', keq a a' = true -> keq b b' = true -> keq n n' = true -> near a b n = near a' b' n'.
  Hypothesis Hswap : forall a b n, near a b n = near b a n.
  Hypothesis Hno : forall l, Permutation (node_order l) l.
  Hypothesis Heo : forall e, Permutation (edge_order e) (edge_pairs e).

  (** C195: if no line laid over the mainland leaves a piece in it, in any direction the options allow,
      the planner is not told, and what follows is undefined behaviour, however many rounds the
      loops are granted. *)
  Theorem plan_no_swaths (rb : robot RNum) cells opt mainland rings :
    0 < rb_cov_width rb -> headland_parts buffer (rb_width rb) cells opt mainland rings ->
    Forall (plannable inside opt (rb_cov_width rb)) mainland ->
    (forall c a lines, In c mainland -> (o_sg_alg opt = GIVEN_ANGLE -> a = o_sg_angle opt) ->
       (o_sg_alg opt = BRUTE_FORCE -> exists k, (k < 360)%nat /\ a = degrees k) ->
       laid a (rb_cov_width rb) c lines -> inside lines c = []) ->
    (forall ring, In ring (concat rings) -> ring <> []) ->
    exists n0, forall fuel, (n0 <= fuel)%nat -> plan fuel rb cells opt = UB.
  Proof.
    intros Hw PH HM HI Hr. assert (Hh : o_hg_alg opt = HG_CONST -> (1 <= o_hg_swaths opt)%Z).
    { intro E. unfold headland_parts in PH. rewrite E in PH. destruct PH as (k & ? & _). auto. }
    destruct (headland_ok buffer rb cells opt Hh) as (m & ri & EH & PH').
    destruct (headland_parts_eq buffer (rb_width rb) cells opt m ri mainland rings PH' PH) as [-> ->].
    destruct (swaths_ok inside wkt s_length cs_area covered intersects inter covered_area sched HP rb opt mainland Hw HM) as (sbc & n0 & F & ES).
    exists n0. intros fuel Hf. unfold planCovRoute. rewrite EH. cbn [bind fst snd]. rewrite ES by auto. cbn [bind].
    apply no_swaths; auto. clear ES PH PH' EH HM Hr.
    induction F as [|c s cs sbc' Hc F IH]; [reflexivity|]. cbn [concat].
    rewrite IH by (intros c' a' lines' Hin; apply HI; now right).
    rewrite app_nil_r. destruct Hc as (a & lines & cost & CH & (LA & _ & [SL _]) & _).
    rewrite (HI c a lines) in SL; [destruct s; [reflexivity|discriminate]|now left| | |exact LA].
    - intro E. unfold chosen in CH. now rewrite E in CH.
    - intro E. unfold chosen in CH. rewrite E in CH. destruct CH as (k & Hk & Ea & _). eauto.
  Qed.
End Plan.

(** A field is lost that way in one piece: of the cell with two peaks, planned without
    headland and along the x axis by a robot 2 wide, one line touches a peak in one point,
    and the exact answer of the geometry library to the cut of the lines is a
    collection of that point and the pieces. *)
Definition peaks_robot : robot RNum := mkRobot (N := RNum) EmptyString 2 2 1 1 1 None.

Theorem plan_touching_line_refuted buffer wkt s_length cs_area covered intersects inter covered_area sched keq near node_order edge_order solver :
  (forall n, Permutation (sched n) (seq 0 n)) -> equivalence keq ->
  (forall a b n a' b' n', keq a a' = true -> keq b b' = true -> keq n n' = true -> near a b n = near a' b' n') ->
  (forall a b n, near a b n = near b a n) -> (forall l, Permutation (node_order l) l) -> (forall e, Permutation (edge_order e) (edge_pairs e)) ->
  exists (rb : robot RNum) (cell : rcell) opt lines (g : ogr RNum),
    o_sg_alg opt = GIVEN_ANGLE /\ o_hg_alg opt = HG_NONE /\ laid (o_sg_angle opt) (rb_cov_width rb) cell lines /\ cut_exactly in_polygon lines cell g /\
    (exists line q, In line lines /\ stretch in_polygon cell line q) /\
    forall geos : list (list rpoint) -> rcell -> ogr RNum, geos lines cell = g ->
    forall fuel, (2 <= fuel)%nat ->
    planCovRoute buffer (fun ls c => ml_of_ogr RNum (geos ls c)) wkt s_length cs_area covered intersects inter covered_area fuel sched
      keq near node_order edge_order solver rb [cell] opt = UB.
Proof.
  intros HP Heq Hnear Hswap Hno Heo.
  exists peaks_robot, peaks, ex_options, peak_lines, peak_cut. split; [reflexivity|]. split; [reflexivity|]. split; [|split; [exact peak_cut_exact|split]].
  - destruct peaks_extent as [HX HY]. exists 0, 8, 0, 4. split; [exact HX|]. split; [exact HY|]. split; [intros _; simpl; lra|]. split; [lra|].
    intros k line Hk. unfold along, across_of. cbn [o_sg_angle ex_options rb_cov_width peaks_robot]. rewrite cos_0, sin_0.
    destruct k as [|[|k]]; [| |destruct k; discriminate]; injection Hk as <-;
      (eexists; eexists; split; [reflexivity|]); unfold P; cbn [px py]; simpl INR; lra.
  - exists [P (-12) 1; P 12 1], (P 4 1). split; [left; reflexivity|exact peak_stretch].
  - intros geos G fuel F. unfold planCovRoute, plan_headland, plan_swaths, sg_generateSwaths_cells.
    cbn [ex_options o_hg_alg o_sg_alg o_sg_angle bind fst snd mapM]. unfold sg_generateSwaths, rb_getCovWidth.
    cbn [peaks_robot rb_cov_width]. rewrite (peaks_lines fuel F). cbn [bind]. rewrite G.
    apply no_swaths; auto. intros ring [<-|[]]. discriminate.
Qed.

(** The library may as well answer that nothing is common, for a field whose outline encloses nothing. *)
Example plan_no_swaths_ex : 0 < rb_cov_width ex_robot /\ headland_parts ex_buffer 1 [rect 2 1] ex_options [rect 2 1] [rect 2 1] /\
  Forall (plannable (fun _ _ => []) ex_options 1) [rect 2 1] /\ forall ring, In ring (concat [rect 2 1]) -> ring <> [].
Proof.
  split; [cbn; lra|]. split; [split; auto|]. split; [constructor; [split; [discriminate|split; discriminate]|constructor]|].
  intros ring [<-|[]]. discriminate.
Qed.

Print Assumptions plan_no_swaths.
Print Assumptions plan_touching_line_refuted.
