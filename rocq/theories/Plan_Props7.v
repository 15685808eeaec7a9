(** A path for fields in local coordinates (property C251). *)
From Coq Require Import String ZArith Bool Arith Lia Reals Lra List Permutation.
From Verif Require Import Outcome Num ListAux Point_Model Swath_Model Graph_Model Graph_Spec Graph2D_Model Graph2D_Spec Route_Model
  RoutePlanner_Model RoutePlanner_Spec Angle_Model Angle_Spec Angle_Props Objective_Model Objective_Spec SwathGen_Model SwathGen_Spec SwathGen_Props Robot_Model Path_Model Path_Spec
  Turning_Model Turning_Props PathPlanning_Model PathPlanning_Spec Container_Model Container_Spec Text_Model Field_Model Field_Spec Transform_Model Transform_Spec Curves_Model Curves_Spec
  Plan_Model Plan_Model2 Plan_Spec Plan_Spec2 Plan_Props Plan_Props2 Plan_Props4 Plan_Props6.
Import ListNotations.
Open Scope R_scope.

Section Plan.
  Variable buffer : list rcell -> R -> list rcell.
  Variable inside : list (list rpoint) -> rcell -> list (list rpoint).
  Variable s_length : rswath -> R.
  Variable cs_area : list rcell -> R.
  Variable covered : list rcell -> rswath -> list rcell.
  Variable intersects : list rcell -> list rcell -> bool.
  Variable inter : list rcell -> list rcell -> list rcell.
  Variable covered_area : list rcell -> list rswath -> rswath -> R.
  Variable sched : nat -> list nat.
  Variable keq : rpoint -> rpoint -> bool.
  Variable near : rpoint -> rpoint -> rpoint -> bool.
  Variable node_order : list rpoint -> list rpoint.
  Variable edge_order : edges_t -> list (nat * nat).
  Variable mk : sptref -> sptref -> outcome (rpoint -> rpoint).
  Variable solver : graph2d rpoint -> nat -> option (list nat).
  Variable clothoid : R -> R -> R * R * R.
  Variable lib_dubins : R -> R -> bool -> steer_end -> steer_end -> list steer_state.
  Variable ctl_cc : R -> R -> R -> bool -> steer_end -> steer_end -> list (R * R).
  Variable lib_cc : R -> R -> R -> bool -> steer_end -> steer_end -> list steer_state.
  Variable lib_rs : R -> R -> steer_end -> steer_end -> list steer_state.
  Variable lib_hc : R -> R -> R -> steer_end -> steer_end -> list steer_state.
  Let id_wkt : rpoint -> rpoint := fun p => p.
  Notation planner_of := (getPPTurningBasePtr lib_dubins ctl_cc lib_cc lib_rs lib_hc).
  Notation simple := (plan_simple_turn lib_dubins ctl_cc lib_cc lib_rs lib_hc).
  Notation path_f fuel := (planCovPath_field buffer inside id_wkt s_length cs_area covered intersects inter covered_area fuel sched
    keq near node_order edge_order solver mk simple clothoid).
  Notation cell_ok := (cell_ok s_length cs_area covered intersects inter covered_area inside id_wkt).

  Hypothesis HP : forall n, Permutation (sched n) (seq 0 n).
  Hypothesis Heq : equivalence keq.
  Hypothesis Hnear : forall a b n a' b' n', keq a a' = true -> keq b b' = true -> keq n n' = true -> near a b n = near a' b' n'.
  Hypothesis Hswap : forall a b n, near a b n = near b a n.
  Hypothesis Hno : forall l, Permutation (node_order l) l.
  Hypothesis Heo : forall e, Permutation (edge_order e) (edge_pairs e).
  Hypothesis Hsolve : solves solver.

  (** C251: the same for a field in local coordinates, wherever it lies: its cells are planned relative to its
      first border point. *)
  Theorem plan_field_path_defined (rb : robot RNum) (f : rfield) opt p0 : well_formed (f_cells f) -> starts_at (f_cells f) p0 ->
    0 < rb_cov_width rb -> (o_hg_alg opt = HG_CONST -> (1 <= o_hg_swaths opt)%Z) ->
    0 <= rb_max_icc rb < 2147483 -> 0 <= rb_diff_curv rb < 2147483 ->
    (forall k sg d sa ea, limits (planner_of (o_pp_alg opt)) rb k sg -> 0 <= d <= 2000000 -> 0 <= sa <= PI -> 0 <= ea < 2 * PI ->
       usable (curve_of (planner_of (o_pp_alg opt)) k sg (1 / 100) (mkEnd 0 0 sa 0 0) (mkEnd d 0 ea 0 0))) ->
    exists mainland rings, headland_parts buffer (rb_width rb) (map (map (map (fun p => minus p p0))) (f_cells f)) opt mainland rings /\
    (Forall (plannable inside opt (rb_cov_width rb)) mainland ->
     exists sbc n0, Forall2 (cell_ok opt (rb_cov_width rb)) mainland sbc /\
     forall o : pt,
     (routable id_wkt keq near (fun p => cells_closestPointOnBorderTo p rings) (concat rings) (concat sbc) ->
      rings <> [] -> rings_ok rings -> (forall c r p, In c rings -> In r c -> In p r -> around o p) ->
      (forall s, In s (concat sbc) -> (2 <= length (sw_path s))%nat /\ forall p, In p (sw_path s) -> around o p) ->
      exists p parts ks, Permutation (map fst ks) (seq 0 (length (concat sbc))) /\
        filter swath_state p = concat parts /\
        Forall2 (fun kb part => exists s, nth_error (concat sbc) (fst kb) = Some s /\
          drives (rb_cruise rb) (if snd kb : bool then rev (sw_path s) else sw_path s) part) ks parts /\
        forall fuel, (n0 <= fuel)%nat -> path_f fuel rb f opt true = Ok p)).
  Proof.
    intros W S0 Hw Hh Hk Hs Lib.
    destruct (plan_path_defined buffer inside s_length cs_area covered intersects inter covered_area sched keq near node_order edge_order solver
      clothoid lib_dubins ctl_cc lib_cc lib_rs lib_hc HP Heq Hnear Hswap Hno Heo Hsolve rb
      (map (map (map (fun p => minus p p0))) (f_cells f)) opt Hw Hh Hk Hs Lib) as (mainland & rings & PH & H).
    exists mainland, rings. split; [exact PH|]. intro HM. destruct (H HM) as (sbc & n0 & F & G). exists sbc, n0. split; [exact F|].
    intros o A B C D E. destruct (G o A B C D E) as (p & parts & ks & PK & FP & FD & EF). exists p, parts, ks.
    do 3 (split; [assumption|]). intros fuel Hf. rewrite <- (EF fuel Hf). apply plan_local_field; assumption.
  Qed.
End Plan.
Print Assumptions plan_field_path_defined.

Definition far_field : rfield := mkField (txt "A") (txt "local") [] (mkPoint (N := RNum) 100 200 0)
  [map (map (fun p => plus p (mkPoint (N := RNum) 5000 7000 0))) (rect 2 2)].

Lemma far_moved : map (map (map (fun p => minus p (mkPoint (N := RNum) 5000 7000 0)))) (f_cells far_field) = [rect 2 2].
Proof.
  cbn [far_field f_cells map rect]. unfold plus, minus. cbn [px py pz]. change (carrier RNum) with R.
  assert (Q : forall x y : R, x + y - y = x) by (intros; ring). rewrite !Q. reflexivity.
Qed.

Section Ex.
  Variable s_length : rswath -> R.
  Variable cs_area : list rcell -> R.
  Variable covered : list rcell -> rswath -> list rcell.
  Variable intersects : list rcell -> list rcell -> bool.
  Variable inter : list rcell -> list rcell -> list rcell.
  Variable covered_area : list rcell -> list rswath -> rswath -> R.
  Variable mk : sptref -> sptref -> outcome (rpoint -> rpoint).
  Variable clothoid : R -> R -> R * R * R.
  Variable ctl_cc : R -> R -> R -> bool -> steer_end -> steer_end -> list (R * R).
  Variable lib_cc : R -> R -> R -> bool -> steer_end -> steer_end -> list steer_state.
  Variable lib_rs : R -> R -> steer_end -> steer_end -> list steer_state.
  Variable lib_hc : R -> R -> R -> steer_end -> steer_end -> list steer_state.

  (** A field of 2 x 2 some kilometres off: the path is that of the square at the origin. *)
  Example plan_field_path_defined_ex : exists p parts ks n0,
    Permutation (map fst ks) [0; 1]%nat /\ filter swath_state p = concat parts /\ 
    Forall2 (fun kb part => exists s, nth_error two_swaths (fst kb) = Some s /\
      drives 1 (if snd kb : bool then rev (sw_path s) else sw_path s) part) ks parts /\
    forall fuel, (n0 <= fuel)%nat ->
      planCovPath_field ex_buffer two_inside (fun p => p) s_length cs_area covered intersects inter covered_area fuel (seq 0)
        ex_keq ex_near (fun l => l) edge_pairs ex_solver mk (plan_simple_turn ex_line ctl_cc lib_cc lib_rs lib_hc) clothoid
        ex_robot far_field ex_options true = Ok p.
  Proof.
    destruct (plan_field_path_defined ex_buffer two_inside s_length cs_area covered intersects inter covered_area (seq 0)
      ex_keq ex_near (fun l => l) edge_pairs mk ex_solver clothoid ex_line ctl_cc lib_cc lib_rs lib_hc) with
      (rb := ex_robot) (f := far_field) (opt := ex_options) (p0 := mkPoint (N := RNum) 5000 7000 0) as (mainland & rings & HP & H).
    - reflexivity.
    - apply ex_keq_equiv.
    - reflexivity.
    - reflexivity.
    - reflexivity.
    - reflexivity.
    - apply ex_solves.
    - intros x [<-|[]]. split; [now do 3 eexists|]. intros r [<-|[]]. right.
      set (g := fun p => plus p (mkPoint (N := RNum) 5000 7000 0)). exists (g (mkPoint (N := RNum) 0 0 0)),
        [g (mkPoint (N := RNum) 2 0 0); g (mkPoint (N := RNum) 2 2 0); g (mkPoint (N := RNum) 0 2 0)]. left. reflexivity.
    - cbn [far_field f_cells map rect]. unfold plus. cbn [px py pz]. change (carrier RNum) with R.
      assert (Q : forall x : R, 0 + x = x) by (intros; ring). rewrite !Q. do 3 eexists. reflexivity.
    - cbn. lra.
    - discriminate.
    - cbn. lra.
    - cbn. lra.
    - intros k sg d sa ea _ Hd _ _. apply (ex_line_usable k (1 / 100) true sa d ea Hd).
    - rewrite far_moved in HP. destruct HP as [-> ->]. destruct H as (sbc & n0 & F & G).
      { constructor; [|constructor]. split; [discriminate|]. split; discriminate. }
      assert (ES : sbc = [two_swaths]).
      { inversion F as [|? l ? sbc' HC HT]; subst. inversion HT; subst. destruct HC as (a & lines & cost & _ & (_ & _ & SL & SW) & _).
        pose proof (SW 0%nat _ eq_refl) as S0. pose proof (SW 1%nat _ eq_refl) as S1. cbn beta in S0, S1. rewrite map_id in S0, S1.
        destruct l as [|s0 [|s1 [|? ?]]]; try discriminate. injection S0 as ->. injection S1 as ->. reflexivity. }
      subst sbc. assert (AR : forall p, in_sq p -> around (mkPoint (N := RNum) 0 0 0) p).
      { intros p [[A1 A2] [A3 A4]]. split; cbn; apply Rabs_le; change (carrier RNum) with R in *; lra. }
      destruct (G (mkPoint (N := RNum) 0 0 0) two_routable) as (p & parts & ks & PK & FP & FD & E); auto.
      + discriminate.
      + exact sq_rings.
      + intros c r p H1 H2 H3. apply AR. eapply sq_points; eauto.
      + intros s Hs. split; [destruct Hs as [<-|[<-|[]]]; simpl; lia|]. intros p Hp. apply AR. eapply two_points; eauto.
      + exists p, parts, ks, n0. split; [exact PK|]. split; [exact FP|]. split; [exact FD|exact E].
  Qed.
End Ex.
