(** The overloads of the planning functions (property C250). *)
From Coq Require Import List Arith ZArith Lia Bool Reals Lra.
From Verif Require Import Outcome ListAux Num Point_Model Angle_Model Swath_Model SwathGen_Model Route_Model Graph_Model Graph2D_Model
  Objective_Model Robot_Model Path_Model Path_Spec Field_Model Field_Spec Field_Proofs Transform_Model Transform_Spec Turning_Model PathPlanning_Model
  Plan_Model Plan_Props Plan_Props2.
Import ListNotations.
Open Scope R_scope.

Section Overloads.
  Variable buffer : list rcell -> R -> list rcell.
  Variable inside : list (list rpoint) -> rcell -> list (list rpoint).
  Variable wkt : rpoint -> rpoint.
  Variable s_length : rswath -> R.
  Variable cs_area : list rcell -> R.
  Variable covered : list rcell -> rswath -> list rcell.
  Variable intersects : list rcell -> list rcell -> bool.
  Variable inter : list rcell -> list rcell -> list rcell.
  Variable covered_area : list rcell -> list rswath -> rswath -> R.
  Variable fuel : nat.
  Variable sched : nat -> list nat.
  Variable keq : rpoint -> rpoint -> bool.
  Variable near : rpoint -> rpoint -> rpoint -> bool.
  Variable node_order : list rpoint -> list rpoint.
  Variable edge_order : edges_t -> list (nat * nat).
  Variable solver : graph2d rpoint -> nat -> option (list nat).
  Variable mk : sptref -> sptref -> outcome (rpoint -> rpoint).
  Variable simple_turn : PPAlg -> robot RNum -> R -> R -> R -> R -> outcome (list rstate).
  Variable clothoid : R -> R -> R * R * R.
  Notation plan := (planCovRoute buffer inside wkt s_length cs_area covered intersects inter covered_area fuel sched
    keq near node_order edge_order solver).
  Notation path := (planCovPath buffer inside wkt s_length cs_area covered intersects inter covered_area fuel sched
    keq near node_order edge_order solver simple_turn clothoid).
  Notation plan_f := (planCovRoute_field buffer inside wkt s_length cs_area covered intersects inter covered_area fuel sched
    keq near node_order edge_order solver mk).
  Notation path_f := (planCovPath_field buffer inside wkt s_length cs_area covered intersects inter covered_area fuel sched
    keq near node_order edge_order solver mk simple_turn clothoid).
  Notation plan_c := (planCovRoute_cell buffer inside wkt s_length cs_area covered intersects inter covered_area fuel sched
    keq near node_order edge_order solver).
  Notation path_c := (planCovPath_cell buffer inside wkt s_length cs_area covered intersects inter covered_area fuel sched
    keq near node_order edge_order solver simple_turn clothoid).
  Notation plan_d := (planCovRoute_field_default buffer inside wkt s_length cs_area covered intersects inter covered_area fuel sched
    keq near node_order edge_order solver mk).
  Notation path_d := (planCovPath_field_default buffer inside wkt s_length cs_area covered intersects inter covered_area fuel sched
    keq near node_order edge_order solver mk simple_turn clothoid).

  (** The options that a plan made without options agrees with: three headland
      swaths of constant width, swaths by brute force with the estimated number of swaths,
      and Dubins curves; the others do not matter. *)
  Definition usual (opt : options) : Prop :=
    o_hg_alg opt = HG_CONST /\ o_hg_swaths opt = 3%Z /\ o_sg_alg opt = BRUTE_FORCE /\ o_sg_obj opt = N_SWATH_MOD.

  (** C250.  A cell is planned as the collection holding that cell; a field without
      options is planned as with three headland swaths, brute force, the estimated
      number of swaths and Dubins curves, whatever the other options are. *)
  Theorem plan_overloads (rb : robot RNum) :
    (forall c opt, plan_c rb c opt = plan rb [c] opt /\ path_c rb c opt = path rb [c] opt) /\
    (forall f local opt, usual opt -> plan_d rb f local = plan_f rb f opt local /\
       (o_pp_alg opt = DUBINS -> path_d rb f local = path_f rb f opt local)).
  Proof.
    split; [intros c opt; split; reflexivity|]. intros f local opt (H1 & H2 & H3 & H4).
    assert (E : forall cells, plan rb cells default_options = plan rb cells opt).
    { intro cells. apply plan_options; cbn [default_options o_hg_alg o_hg_swaths o_sg_alg o_sg_obj]; auto. discriminate. }
    split.
    - unfold planCovRoute_field_default, planCovRoute_field. destruct (plan_field wkt mk f local) as [f1| | |]; try reflexivity.
      cbn [bind]. rewrite E. reflexivity.
    - intro H5. unfold planCovPath_field_default, planCovPath_field. destruct (plan_field wkt mk f local) as [f1| | |]; try reflexivity.
      cbn [bind]. rewrite E. destruct (plan rb (f_cells f1) opt) as [r| | |]; try reflexivity. cbn [bind].
      unfold plan_path. rewrite H5. reflexivity.
  Qed.
End Overloads.
Print Assumptions plan_overloads.

Example plan_overloads_ex : exists opt, usual opt /\ o_pp_alg opt = DUBINS /\ opt <> default_options.
Proof.
  exists (mkOptions DECOMP_NONE 7 HG_CONST 3 BRUTE_FORCE N_SWATH_MOD 5 SHORTEST_ROUTE DUBINS). split; [repeat split|]. split; [reflexivity|].
  intro E. apply (f_equal o_decomp_angle) in E. cbn in E. lra.
Qed.
