(** Theorems about the paths planned in one call with the turn planners of the options
    (src/fields2cover.cpp). *)
From Coq Require Import String ZArith Bool Arith Lia Reals Lra List Permutation.
From Verif Require Import Outcome Num ListAux Point_Model Swath_Model Graph_Model Graph2D_Model Route_Model
  Angle_Model Angle_Spec Objective_Model SwathGen_Model Robot_Model Path_Model Path_Spec
  Turning_Model Turning_Spec Turning_Proofs Turning_Props PathPlanning_Model PathPlanning_Spec PathPlanning_Proofs PathPlanning_Props PathPlanning_Proofs3
  Container_Model Curves_Model Curves_Spec Curves_Proofs
  Plan_Model Plan_Model2 Plan_Spec Plan_Proofs Plan_Props Plan_Props2.
Import ListNotations.
Open Scope R_scope.

(** The library drives its curves forward; those of Reeds and Shepp backward, too. *)
Definition ahead (forward : bool) (curve : list steer_state) : Prop :=
  forall c, In c curve -> st_d c = 1 \/ (forward = false /\ st_d c = -1).

Section Plan.
  Variable buffer : list rcell -> R -> list rcell.
  Variable inside : list (list rpoint) -> rcell -> list (list rpoint).
  Variable s_length : rswath -> R.
  Variable cs_area : list rcell -> R.
  Variable covered : list rcell -> rswath -> list rcell.
  Variable intersects : list rcell -> list rcell -> bool.
  Variable inter : list rcell -> list rcell -> list rcell.
  Variable covered_area : list rcell -> list rswath -> rswath -> R.
  Variable fuel : nat.
  Variable sched : nat -> list nat.
  Variable keq : rpoint -> rpoint -> bool.
  Variable near : rpoint -> rpoint -> rpoint -> bool.
  Variable node_order : list rpoint -> list rpoint.
  Variable edge_order : edges_t -> list (nat * nat).
  Variable solver : graph2d rpoint -> nat -> option (list nat).
  Variable clothoid : R -> R -> R * R * R.
  Variable lib_dubins : R -> R -> bool -> steer_end -> steer_end -> list steer_state.
  Variable ctl_cc : R -> R -> R -> bool -> steer_end -> steer_end -> list (R * R).
  Variable lib_cc : R -> R -> R -> bool -> steer_end -> steer_end -> list steer_state.
  Variable lib_rs : R -> R -> steer_end -> steer_end -> list steer_state.
  Variable lib_hc : R -> R -> R -> steer_end -> steer_end -> list steer_state.
  Hypothesis H_dubins : forall k disc from to, ahead true (lib_dubins k disc true from to).
  Hypothesis H_cc : forall k sg disc from to, ahead true (lib_cc k sg disc true from to).
  Hypothesis H_rs : forall k disc from to, ahead false (lib_rs k disc from to).
  Hypothesis H_hc : forall k sg disc from to, ahead false (lib_hc k sg disc from to).
  Let id_wkt : rpoint -> rpoint := fun p => p.
  Notation simple := (plan_simple_turn lib_dubins ctl_cc lib_cc lib_rs lib_hc).
  Notation plan := (planCovRoute buffer inside id_wkt s_length cs_area covered intersects inter covered_area fuel sched
    keq near node_order edge_order solver).
  Notation path := (planCovPath buffer inside id_wkt s_length cs_area covered intersects inter covered_area fuel sched
    keq near node_order edge_order solver simple clothoid).

  Lemma simple_tags (rb : robot RNum) alg : 0 <= rb_max_icc rb -> 0 <= rb_diff_curv rb -> forall disc d sa ea g, simple alg rb disc d sa ea = Ok g ->
    tagged (fun dir ty v => ty = 2%Z /\ v = rb_getTurnVel RNum rb /\ (dir = 1%Z \/ ((alg = REEDS_SHEPP \/ alg = REEDS_SHEPP_HC) /\ dir = (-1)%Z))) g.
  Proof.
    intros Hk Hs disc d sa ea g H. set (pl := getPPTurningBasePtr lib_dubins ctl_cc lib_cc lib_rs lib_hc alg).
    destruct (simple_curve pl rb disc d sa ea Hk Hs) as (k & sg & _ & _ & E). unfold plan_simple_turn in H. fold pl in H. rewrite E in H.
    destruct (steer_to_path (curve_of pl k sg disc (mkEnd 0 0 sa 0 0) (mkEnd d 0 ea 0 0)) (rb_getTurnVel RNum rb)) as [A _].
    destruct (A g H) as [_ N]. intros s Hin. apply In_nth_error in Hin. destruct Hin as [i Hi].
    destruct (N i s Hi) as (c & Hc & _ & _ & Ty & V & D1 & D2 & _). apply nth_error_In in Hc.
    split; [exact Ty|]. split; [exact V|]. subst pl. destruct alg; cbn [getPPTurningBasePtr curve_of] in Hc.
    - destruct (H_dubins _ _ _ _ c Hc) as [D|[D _]]; [left; auto|discriminate].
    - destruct (H_cc _ _ _ _ _ c Hc) as [D|[D _]]; [left; auto|discriminate].
    - destruct (H_rs _ _ _ _ c Hc) as [D|[_ D]]; [left; auto|right; auto].
    - destruct (H_hc _ _ _ _ _ c Hc) as [D|[_ D]]; [left; auto|right; auto].
  Qed.

  (** C240: a planned path drives the swaths of the planned route, in its order, forward and with the cruise
      velocity; all its other states are turns, with the turning velocity, and
      forward unless the planner is one of Reeds' and Shepp's. *)
  Theorem plan_path_states (rb : robot RNum) cells opt p : 0 <= rb_max_icc rb -> 0 <= rb_diff_curv rb ->
    path rb cells opt = Ok p ->
    exists rt parts, plan rb cells opt = Ok rt /\
      Forall2 (fun s part => drives (rb_cruise rb) (sw_path s) part) (concat (r_swaths rt)) parts /\
      filter swath_state p = concat parts /\
      forall s : rstate, In s p ->
        (ps_type s = 1%Z /\ ps_dir s = 1%Z /\ ps_vel s = rb_cruise rb) \/
        (ps_type s = 2%Z /\ (forall v, rb_turn_vel rb = Some v -> ps_vel s = v) /\ (rb_turn_vel rb = None -> ps_vel s = rb_cruise rb) /\
         (ps_dir s = 1%Z \/ ((o_pp_alg opt = REEDS_SHEPP \/ o_pp_alg opt = REEDS_SHEPP_HC) /\ ps_dir s = (-1)%Z))).
  Proof.
    intros Hk Hs E. unfold planCovPath in E. destruct (plan rb cells opt) as [rt| | |] eqn:ER; try discriminate. cbn [bind] in E.
    unfold plan_path in E. destruct (planPath_route _ _ _ _ _ _) as [[r t']| | |] eqn:EP; try discriminate. cbn [bind fst] in E. injection E as <-.
    set (Qt := fun dir ty v => ty = 2%Z /\ v = rb_getTurnVel RNum rb /\ (dir = 1%Z \/ ((o_pp_alg opt = REEDS_SHEPP \/ o_pp_alg opt = REEDS_SHEPP_HC) /\ dir = (-1)%Z))).
    set (Q := fun dir ty (v : R) => (ty = 1%Z /\ dir = 1%Z /\ v = rb_cruise rb) \/ Qt dir ty v).
    set (Inv := fun t : turner => forall k g, In (k, g) (t_cache t) -> tagged Qt g).
    assert (Keep : forall t p a q b r0 t0, Inv t -> createTurn (simple (o_pp_alg opt)) t rb p a q b = Ok (r0, t0) -> tagged Qt r0 /\ Inv t0).
    { intros t p0 a q b r0 t0 I C. eapply createTurn_tags; [|exact I|exact C]. intros disc d sa ea g. apply simple_tags; auto. }
    assert (I0 : Inv turner_new) by (intros k g []).
    destruct (plan_route_filter turner (createTurn (simple (o_pp_alg opt))) Inv rb (fun t p a q b r0 t0 I C => proj2 (Keep t p a q b r0 t0 I C)) clothoid rt turner_new r t' I0 EP) as (_ & parts & F & G & _).
    { intros t0 p0 a q b raw t1 I C. destruct (Keep _ _ _ _ _ _ _ I C) as [K _]. intros s Hin. apply (K s Hin). }
    destruct (plan_route_tags turner (createTurn (simple (o_pp_alg opt))) Inv rb Q) with (clothoid := clothoid) (rt := rt) (t := turner_new) (r := r) (t' := t') as [_ HT]; auto.
    { intros t0 p0 a q b raw t1 I C. destruct (Keep _ _ _ _ _ _ _ I C) as [K1 K2]. split; [|exact K2]. intros s Hin. right. apply K1. exact Hin. }
    { left. auto. }
    exists rt, parts. repeat (split; [auto|]). intros s Hin. destruct (HT s Hin) as [(A & B & C)|(A & B & C)]; [left; auto|right].
    split; [exact A|]. unfold rb_getTurnVel in B. split; [intros v Ev; rewrite Ev in B; exact B|]. split; [intro Ev; rewrite Ev in B; exact B|exact C].
  Qed.
End Plan.
Print Assumptions plan_path_states.

(** Libraries that go straight to the end, those of Reeds and Shepp by going backward first. *)
Definition ex_go (d : R) (from to : steer_end) : list steer_state :=
  [mkSteer (en_x from) (en_y from) (en_theta from) d; mkSteer (en_x to) (en_y to) (en_theta to) 1].
Example plan_path_states_ex : 0 <= rb_max_icc ex_robot /\ 0 <= rb_diff_curv ex_robot /\
  (forall from to, ahead true (ex_go 1 from to)) /\ (forall from to, ahead false (ex_go (-1) from to)) /\
  (exists from to, ~ ahead true (ex_go (-1) from to)).
Proof.
  split; [cbn; lra|]. split; [cbn; lra|]. split; [|split].
  - intros from to c [<-|[<-|[]]]; left; reflexivity.
  - intros from to c [<-|[<-|[]]]; [right; split|left]; reflexivity.
  - exists (mkEnd 0 0 0 0 0), (mkEnd 1 0 0 0 0). intro H. destruct (H _ (or_introl eq_refl)) as [E|[E _]]; [cbn in E; lra|discriminate].
Qed.
