(** Theorems about planning fields and paths in one call (src/fields2cover.cpp). *)
From Coq Require Import Ascii String ZArith Bool Arith Lia Reals Lra List Permutation.
From Verif Require Import Outcome Num ListAux Point_Model Swath_Model Graph_Model Graph_Spec Graph2D_Model Graph2D_Spec Route_Model
  RoutePlanner_Model RoutePlanner_Spec Angle_Model Angle_Spec Objective_Model SwathGen_Model Robot_Model Path_Model Path_Spec
  Turning_Model Turning_Props PathPlanning_Model PathPlanning_Spec PathPlanning_Proofs PathPlanning_Props
  Container_Model Container_Spec Container_Proofs Text_Model Text_Spec Field_Model Field_Spec Field_Proofs Field_Props
  Transform_Model Transform_Spec Transform_Proofs Transform_Props Transform_Props2
  Plan_Model Plan_Spec Plan_Proofs Plan_Proofs2 Plan_Proofs4 Plan_Props.
Import ListNotations.
Open Scope R_scope.

Definition minus (p q : pt) : pt := mkPoint (N := RNum) (px p - px q) (py p - py q) (pz p - pz q).

Section Plan.
  Variable buffer : list rcell -> R -> list rcell.
  Variable inside : list (list rpoint) -> rcell -> list (list rpoint).
  Variable s_length : rswath -> R.
  Variable cs_area : list rcell -> R.
  Variable covered : list rcell -> rswath -> list rcell.
  Variable intersects : list rcell -> list rcell -> bool.
  Variable inter : list rcell -> list rcell -> list rcell.
  Variable covered_area : list rcell -> list rswath -> rswath -> R.
  Variable fuel : nat.
  Variable sched : nat -> list nat.
  Variable keq : rpoint -> rpoint -> bool.
  Variable near : rpoint -> rpoint -> rpoint -> bool.
  Variable node_order : list rpoint -> list rpoint.
  Variable edge_order : edges_t -> list (nat * nat).
  Variable solver : graph2d rpoint -> nat -> option (list nat).
  Variable mk : sptref -> sptref -> outcome (rpoint -> rpoint).
  Variable simple_turn : PPAlg -> robot RNum -> R -> R -> R -> R -> outcome (list rstate).
  Variable clothoid : R -> R -> R * R * R.
  Let id_wkt : rpoint -> rpoint := fun p => p.
  Notation plan := (planCovRoute buffer inside id_wkt s_length cs_area covered intersects inter covered_area fuel sched
    keq near node_order edge_order solver).
  Notation plan_f := (planCovRoute_field buffer inside id_wkt s_length cs_area covered intersects inter covered_area fuel sched
    keq near node_order edge_order solver mk).
  Notation path := (planCovPath buffer inside id_wkt s_length cs_area covered intersects inter covered_area fuel sched
    keq near node_order edge_order solver simple_turn clothoid).
  Notation path_f := (planCovPath_field buffer inside id_wkt s_length cs_area covered intersects inter covered_area fuel sched
    keq near node_order edge_order solver mk simple_turn clothoid).

  Lemma clone_eq (f : rfield) p0 : well_formed (f_cells f) -> starts_at (f_cells f) p0 ->
    field_clone RNum id_wkt f = Ok (mkField (f_id f) (f_crs f) [] (p_add RNum p0 (f_ref f)) (map (map (map (fun p => minus p p0))) (f_cells f))).
  Proof.
    intros W (r & rs & c & E). unfold field_clone, cells_add. rewrite wf_image by exact W.
    rewrite field_make_ok by (apply well_formed_map; exact W). cbn [bind field_setCRS f_id f_prev f_ref f_cells].
    assert (F : first_point (map (map (map (fun p => id_wkt (p_add RNum p (f_ref f))))) (f_cells f)) = p_add RNum p0 (f_ref f)).
    { rewrite E. reflexivity. }
    rewrite F. f_equal. unfold field_setCRS. cbn [f_id f_prev f_ref f_cells]. f_equal.
    rewrite map_map. apply map_ext. intro x. rewrite map_map. apply map_ext. intro y. rewrite map_map. apply map_ext. intro q.
    unfold id_wkt, minus, p_sub, p_add. cbn [px py pz]. destruct q as [a b d], p0 as [a' b' d'], (f_ref f) as [u v w]. cbn [px py pz].
    assert (Q : forall x y z : R, (x + z) - (y + z) = x - y) by (intros; ring). f_equal; apply Q.
  Qed.

  (** C196: in local coordinates the cells of the field are planned relative to its
      first border point, whatever the reference point and the system of the field. *)
  Theorem plan_local_field (rb : robot RNum) (f : rfield) opt p0 : well_formed (f_cells f) -> starts_at (f_cells f) p0 ->
    plan_f rb f opt true = plan rb (map (map (map (fun p => minus p p0))) (f_cells f)) opt /\
    path_f rb f opt true = path rb (map (map (map (fun p => minus p p0))) (f_cells f)) opt.
  Proof.
    intros W S0. unfold planCovRoute_field, planCovPath_field, planCovPath, plan_field.
    rewrite (clone_eq f p0 W S0). cbn [bind f_cells]. split.
    - destruct (plan rb _ opt); reflexivity.
    - destruct (plan rb _ opt) as [r| | |]; try reflexivity. cbn [bind]. destruct (plan_path _ _ rb opt r); reflexivity.
  Qed.

  (** So moving a field does not change its route, ... *)
  Corollary plan_moved_field (rb : robot RNum) (f f' : rfield) opt d : well_formed (f_cells f) -> f_cells f <> [] ->
    f_cells f' = map (map (map (fun p => plus p d))) (f_cells f) ->
    plan_f rb f' opt true = plan_f rb f opt true /\ path_f rb f' opt true = path_f rb f opt true.
  Proof.
    intros W N E.
    assert (S0 : exists p0, starts_at (f_cells f) p0).
    { destruct (f_cells f) as [|x c]; [congruence|]. destruct (W x (or_introl eq_refl)) as [(p & r & rs & ->) _]. exists p, r, rs, c. reflexivity. }
    destruct S0 as [p0 S0].
    assert (S1 : starts_at (f_cells f') (plus p0 d)).
    { destruct S0 as (r & rs & c & S0). rewrite E, S0. do 3 eexists. reflexivity. }
    assert (W' : well_formed (f_cells f')) by (rewrite E; apply well_formed_map; exact W).
    destruct (plan_local_field rb f opt p0 W S0) as [-> ->]. destruct (plan_local_field rb f' opt _ W' S1) as [-> ->].
    assert (Q : map (map (map (fun p => minus p (plus p0 d)))) (f_cells f') = map (map (map (fun p => minus p p0))) (f_cells f)).
    { rewrite E, map_map. apply map_ext. intro x. rewrite map_map. apply map_ext. intro y. rewrite map_map. apply map_ext. intros [a b c].
      unfold minus, plus. cbn [px py pz]. assert (Q : forall x y z : R, (x + z) - (y + z) = x - y) by (intros; ring). f_equal; apply Q. }
    rewrite Q. auto.
  Qed.

  (** ... and the route is that of the cells themselves when they start at the origin. *)
  Corollary plan_origin_field (rb : robot RNum) (f : rfield) opt : well_formed (f_cells f) ->
    starts_at (f_cells f) (mkPoint (N := RNum) 0 0 0) ->
    plan_f rb f opt true = plan rb (f_cells f) opt /\ path_f rb f opt true = path rb (f_cells f) opt.
  Proof.
    intros W S0. destruct (plan_local_field rb f opt _ W S0) as [-> ->].
    assert (Q : map (map (map (fun p => minus p (mkPoint (N := RNum) 0 0 0)))) (f_cells f) = f_cells f).
    { rewrite <- (map_id (f_cells f)) at 2. apply map_ext. intro x. rewrite <- (map_id x) at 2. apply map_ext. intro y.
      rewrite <- (map_id y) at 2. apply map_ext. intros [a b c]. unfold minus. cbn [px py pz].
      assert (Q : forall x : R, x - 0 = x) by (intros; ring). f_equal; apply Q. }
    rewrite Q. auto.
  Qed.

  (** C197: otherwise, with conversions that compose, the field is brought to the UTM zone of its first
      border point; its cells are planned there relative to that point; and the
      result is brought back to the system of the field. *)
  Theorem plan_global_field conv :
    (forall a b, mk a b = Ok (conv a b)) -> (forall a b c p, conv b c (conv a b p) = conv a c p) -> (forall a p, conv a a p = p) ->
    forall (rb : robot RNum) (f : rfield) opt r, well_formed (f_cells f) -> f_cells f <> [] -> createSptRef (f_crs f) false = Ok r ->
    exists n q, (n = 4326%Z \/ n = 4258%Z) /\ starts_at (map (map (map (conv r (SEpsg n)))) (abs f)) q /\
    (-180 <= px q < 180 -> exists z h d r' ref cells, zone_of (px q) z /\
      (h = txt "N" /\ 0 < py q \/ h = txt "S" /\ py q <= 0) /\ (d = txt "WGS84" /\ n = 4326%Z \/ d = txt "ETRS89" /\ n = 4258%Z) /\
      createSptRef (txt "UTM:" ++ to_string z ++ h ++ txt " datum:" ++ d) false = Ok r' /\
      starts_at cells (mkPoint (N := RNum) 0 0 0) /\ map (map (map (fun p => plus p ref))) cells = map (map (map (conv r r'))) (abs f) /\
      (forall rt, plan rb cells opt = Ok rt -> exists rt', plan_f rb f opt false = Ok rt' /\
        r_conns rt' = map (map (fun p => conv r' r (plus p ref))) (r_conns rt) /\
        Forall2 (Forall2 (fun s t => sw_id t = sw_id s /\ sw_width t = sw_width s /\
          sw_path t = map (fun p => conv r' r (plus p ref)) (sw_path s))) (r_swaths rt) (r_swaths rt')) /\
      ((forall rt, plan rb cells opt <> Ok rt) -> plan_f rb f opt false = plan rb cells opt) /\
      (forall p, path rb cells opt = Ok p -> p <> [] -> exists p1 p2, path_f rb f opt false = Ok (p1 ++ p2) /\ (length p2 <= 1)%nat /\
        Forall2 (fun s t => ps_point t = conv r' r (plus (ps_point s) ref) /\ ps_dir t = ps_dir s /\ ps_type t = ps_type s /\ ps_vel t = ps_vel s) p p1)).
  Proof.
    intros CM CC CI rb f opt r W N HR.
    assert (S0 : exists p0, starts_at (f_cells f) p0).
    { destruct (f_cells f) as [|x c]; [congruence|]. destruct (W x (or_introl eq_refl)) as [(p & l & rs & ->) _]. exists p, l, rs, c. reflexivity. }
    destruct S0 as [p0 S0]. pose proof (clone_eq f p0 W S0) as EC.
    set (g := mkField (f_id f) (f_crs f) [] (p_add RNum p0 (f_ref f)) (map (map (map (fun p => minus p p0))) (f_cells f))) in *.
    assert (Wg : well_formed (f_cells g)) by (apply well_formed_map; exact W).
    assert (Ng : f_cells g <> []) by (cbn; destruct (f_cells f); [congruence|discriminate]).
    assert (Ag : abs g = abs f).
    { rewrite !abs_ok by assumption. cbn [f_cells f_ref g]. rewrite map_map. apply map_ext. intro x. rewrite map_map. apply map_ext. intro y.
      rewrite map_map. apply map_ext. intros [a b c]. unfold minus, p_add. cbn [px py pz].
      assert (Q : forall x y z : R, (x - y) + (y + z) = x + z) by (intros; ring). f_equal; apply Q. }
    assert (Sf : starts_at (abs f) (f_ref g)).
    { rewrite abs_ok by exact W. destruct S0 as (l & rs & c & ->). do 3 eexists. reflexivity. }
    destruct (to_utm_and_back mk conv CM CC CI g true r Wg Ng HR) as (n & q & Hn & G1 & G2 & G3).
    exists n, q. split; [exact Hn|].
    assert (Sq : starts_at (map (map (map (conv r (SEpsg n)))) (abs f)) q).
    { destruct (in_dec (list_eq_dec ascii_dec) (f_crs g) [txt "EPSG:4326"; txt "EPSG:4258"]) as [I|I].
      - destruct (G1 I) as [E ->]. change (f_crs g) with (f_crs f) in E. rewrite HR in E. injection E as ->.
        destruct Sf as (l & rs & c & ->). cbn [map]. rewrite CI. do 3 eexists. reflexivity.
      - destruct (G2 I) as [E _]. rewrite Ag in E. exact E. }
    split; [exact Sq|]. intro X. destruct (G3 X) as (z & h & d & f1 & f2 & r' & Z & Hh & Hd & T & _ & P1 & C1 & R1 & A1 & W1 & S1 & _).
    exists z, h, d, r', (f_ref f1), (f_cells f1). do 3 (split; [assumption|]). split; [rewrite <- C1; exact R1|].
    split; [|split].
    { rewrite abs_ok in S1 by exact W1. destruct S1 as (l & rs & c & S1). destruct (f_cells f1) as [|x cs]; [discriminate|].
      destruct x as [|y x]; [discriminate|]. destruct y as [|p y]; [discriminate|]. cbn [map] in S1. injection S1 as S1 _ _ _.
      assert (p = mkPoint (N := RNum) 0 0 0) as ->; [|do 3 eexists; reflexivity].
      destruct p as [a b e], (f_ref f1) as [a' b' e']. unfold p_add in S1. cbn [px py pz] in S1. injection S1 as X1 X2 X3.
      assert (Q : forall x y : R, x + y = y -> x = 0) by (intros; lra). f_equal; eapply Q; eassumption. }
    { rewrite abs_ok in A1 by exact W1. rewrite Ag in A1. exact A1. }
    assert (PF : plan_field id_wkt mk f false = Ok f1).
    { unfold plan_field. rewrite EC. cbn [bind]. change id_wkt with (fun p : rpoint => p). rewrite T. reflexivity. }
    assert (GC : generateCoordTransf mk (f_crs f1) (f_prev f1) = Ok (conv r' r)).
    { unfold generateCoordTransf. rewrite R1, P1. change (f_crs g) with (f_crs f). rewrite HR. cbn [bind]. apply CM. }
    split; [|split].
    - intros rt E. destruct (transform_route mk id_wkt rt f1 (f_prev f1) _ GC) as (rt' & E' & Cn & Sw).
      { unfold planCovRoute in E. destruct (plan_headland buffer rb (f_cells f1) opt) as [h0| | |]; try discriminate. cbn [bind] in E.
        match type of E with (do swaths <- ?x; _) = _ => destruct x as [sw| | |]; try discriminate end. cbn [bind] in E.
        exact (route_widths id_wkt keq near node_order edge_order solver (snd h0) sw rt E). }
      exists rt'. split; [|split; [exact Cn|exact Sw]].
      unfold planCovRoute_field. rewrite PF. cbn [bind]. rewrite E. exact E'.
    - intro NO. unfold planCovRoute_field. rewrite PF. cbn [bind]. destruct (plan rb (f_cells f1) opt) as [rt| | |]; auto. elim (NO rt); auto.
    - intros p E NP. unfold planCovPath_field. rewrite PF. cbn [bind]. unfold planCovPath in E.
      destruct (plan rb (f_cells f1) opt) as [rt| | |]; try discriminate. cbn [bind] in *. rewrite E. cbn [bind].
      destruct (exists_last NP) as (p' & s_end & ->).
      destruct (transform_path mk p' f1 (f_prev f1) _ s_end GC) as (pp & E' & F & _).
      apply Forall2_app_inv_l in F. destruct F as (p1 & p2 & F1 & F2 & ->). exists p1, p2. split; [exact E'|]. split; [|exact F1].
      apply Forall2_length in F2. rewrite <- F2. destruct (Rlt_dec 0 (ps_len s_end)); cbn; lia.
  Qed.

  (** C199: the path drives the swaths of the route, in its order, and otherwise only turns. *)
  Theorem plan_path_drives (rb : robot RNum) cells opt p : turns_only (simple_turn (o_pp_alg opt)) -> path rb cells opt = Ok p ->
    exists rt parts, plan rb cells opt = Ok rt /\
      Forall2 (fun s part => drives (rb_cruise rb) (sw_path s) part) (concat (r_swaths rt)) parts /\
      filter swath_state p = concat parts /\ (forall s : rstate, In s p -> ps_type s = 1%Z \/ ps_type s = 2%Z).
  Proof.
    intros HT E. unfold planCovPath in E. destruct (plan rb cells opt) as [rt| | |] eqn:ER; try discriminate. cbn [bind] in E.
    unfold plan_path in E. destruct (planPath_route _ _ _ _ _ _) as [[r t']| | |] eqn:EP; try discriminate. cbn [bind fst] in E. injection E as <-.
    destruct (planned_route clothoid _ HT turner_new rb rt r t' (ex_intro _ [] eq_refl : reached _ turner_new) EP) as (parts & F & G & K). exists rt, parts. auto.
  Qed.

  (** There is a path whenever there is a route that drives swaths of at least two points each, and the turns
      between places of a convex set with the points of the route are defined.  It then drives each of the swaths exactly once. *)
  Theorem plan_path_complete (rb : robot RNum) cells opt rt ss (Inv : turner -> Prop) (Q : pt -> Prop) :
    plan rb cells opt = Ok rt -> drives_all id_wkt ss rt -> (forall s, In s ss -> (2 <= length (sw_path s))%nat) ->
    convex Q -> route_in Q rt -> Inv turner_new ->
    (forall t p a q b, Inv t -> Q p -> Q q -> exists r t' d, createTurn (simple_turn (o_pp_alg opt)) t rb p a q b = Ok (r, t') /\
      Inv t' /\ path_discretize r (1 / 10) = Ok d) ->
    turns_only (simple_turn (o_pp_alg opt)) ->
    exists p parts ks, path rb cells opt = Ok p /\ Permutation (map fst ks) (seq 0 (length ss)) /\
      filter swath_state p = concat parts /\
      Forall2 (fun kb part => exists s, nth_error ss (fst kb) = Some s /\
        drives (rb_cruise rb) (if snd kb : bool then rev (sw_path s) else sw_path s) part) ks parts.
  Proof.
    intros E (ks & PK & D) HL CQ RQ I0 Tot HT.
    assert (PL : PathPlanning_Spec.plannable rt).
    { unfold planCovRoute in E. destruct (plan_headland buffer rb cells opt) as [h0| | |]; try discriminate. cbn [bind] in E.
      match type of E with (do swaths <- ?x; _) = _ => destruct x as [sw| | |]; try discriminate end. cbn [bind] in E.
      apply (route_plannable id_wkt keq near node_order edge_order solver (snd h0) sw rt E).
      intros s Hs. destruct (Forall2_in_l _ _ _ D s Hs) as (kb & _ & s0 & E0 & -> & _). apply nth_error_In, HL in E0.
      destruct (snd kb); rewrite ?rev_length, map_length; exact E0. }
    destruct (plan_defined clothoid turner (createTurn (simple_turn (o_pp_alg opt))) Inv rb Q CQ Tot rt turner_new I0 PL RQ) as (p & t' & EP & _).
    destruct (planned_route clothoid _ HT turner_new rb rt p t' (ex_intro _ [] eq_refl : reached _ turner_new) EP) as (parts & F & G & _).
    exists p, parts, ks. split; [|split; [exact PK|split; [exact G|]]].
    - unfold planCovPath. rewrite E. cbn [bind]. unfold plan_path. rewrite EP. reflexivity.
    - clear - D F. revert parts F. induction D as [|x kb l ks (s & E & PX & _) D IH]; intros parts F; inversion F as [|? part ? parts' Hd F']; subst; constructor; auto.
      exists s. split; [exact E|]. rewrite PX in Hd. unfold id_wkt in Hd. rewrite map_id in Hd. exact Hd.
  Qed.

  (** Only the kind of turn is an option of its own for paths. *)
  Theorem plan_path_options (rb : robot RNum) cells opt opt' :
    o_hg_alg opt = o_hg_alg opt' -> (o_hg_alg opt = HG_CONST -> o_hg_swaths opt = o_hg_swaths opt') ->
    o_sg_alg opt = o_sg_alg opt' -> (o_sg_alg opt = BRUTE_FORCE -> o_sg_obj opt = o_sg_obj opt') ->
    (o_sg_alg opt = GIVEN_ANGLE -> o_sg_angle opt = o_sg_angle opt') -> o_pp_alg opt = o_pp_alg opt' ->
    path rb cells opt = path rb cells opt'.
  Proof.
    intros H1 H2 H3 H4 H5 H6. unfold planCovPath, plan_path. rewrite H6. rewrite (plan_options _ _ _ _ _ _ _ _ _ _ _ _ _ _ _ rb cells opt opt'); auto.
  Qed.
End Plan.
Print Assumptions plan_path_complete.
Print Assumptions plan_path_options.
Print Assumptions plan_local_field.
Print Assumptions plan_moved_field.
Print Assumptions plan_origin_field.
Print Assumptions plan_global_field.
Print Assumptions plan_path_drives.

(** A triangle whose first border point is not at the origin. *)
Example plan_local_field_ex : well_formed (f_cells ex_field) /\ starts_at (f_cells ex_field) (mkPoint (N := RNum) 1 1 0).
Proof. split; [exact ex_wf|]. do 3 eexists. reflexivity. Qed.
Example plan_moved_field_ex : exists f' : rfield, f_cells f' <> f_cells ex_field /\
  f_cells f' = map (map (map (fun p => plus p (mkPoint (N := RNum) 5 0 0)))) (f_cells ex_field).
Proof.
  eexists (mkField [] [] [] (mkPoint (N := RNum) 0 0 0) _). cbn [f_cells]. split; [|reflexivity].
  cbn. intro E. injection E as E _. assert (Q : (1 + 5 = 1)%R -> False) by (intro; lra). apply Q. exact E.
Qed.
Example plan_origin_field_ex : exists f : rfield, well_formed (f_cells f) /\ starts_at (f_cells f) (mkPoint (N := RNum) 0 0 0).
Proof.
  exists (mkField [] [] [] (mkPoint (N := RNum) 9 9 0) (map (map (map (fun p => minus p (mkPoint (N := RNum) 1 1 0)))) (f_cells ex_field))).
  cbn [f_cells]. split; [apply well_formed_map; exact ex_wf|].
  cbn. unfold minus. cbn [px py pz]. assert (Q : (1 - 1 = 0)%R) by ring. assert (Q' : (0 - 0 = 0)%R) by ring.
  do 3 eexists. rewrite !Q, !Q'. reflexivity.
Qed.
Example plan_global_field_ex : (forall a b, (fun a b => Ok (shift_conv a b)) a b = Ok (shift_conv a b)) /\
  (forall a b c p, shift_conv b c (shift_conv a b p) = shift_conv a c p) /\ (forall a p, shift_conv a a p = p) /\
  well_formed (f_cells ex_field) /\ f_cells ex_field <> [] /\ createSptRef (f_crs ex_field) false = Ok (SEpsg 4326).
Proof. destruct to_utm_ex as (A & B & C & D & E & _). repeat (split; [auto|]). exact E. Qed.
Example plan_path_complete_ex : exists rt, drives_all (fun p => p) [ex_swath] rt /\ (2 <= length (sw_path ex_swath))%nat /\
  convex near_origin /\ route_in near_origin rt /\ hop_inv turner_new /\ turns_only hop /\
  (forall t p a q b, hop_inv t -> near_origin p -> near_origin q -> exists r t' d, createTurn hop t (robot_v 1) p a q b = Ok (r, t') /\
    hop_inv t' /\ path_discretize r (1 / 10) = Ok d).
Proof.
  exists (mkRoute [[ex_swath]] [[]]). split; [|split; [|split; [exact near_convex|split; [|split; [exact new_hop|split; [exact hop_turns|exact hop_total]]]]]].
  - exists [(0%nat, false)]. split; [reflexivity|]. constructor; [|constructor]. exists ex_swath. cbn [fst snd nth_error]. rewrite map_id. repeat split.
  - cbn. lia.
  - split.
    + intros g s p [<-|[]] [<-|[]] Hp. simpl in Hp. destruct Hp as [<-|[<-|[]]]; unfold near_origin; cbn; lra.
    + intros mp p [<-|[]] [].
Qed.
