(** Theorems about planning paths in one call with the turn planners of the options
    (src/fields2cover.cpp): for which fields there is a path. *)
From Coq Require Import String ZArith Bool Arith Lia Reals Lra List Permutation.
From Verif Require Import Outcome Num ListAux Point_Model Swath_Model Graph_Model Graph_Spec Graph2D_Model Graph2D_Spec Route_Model
  RoutePlanner_Model RoutePlanner_Spec Angle_Model Angle_Spec Angle_Props Objective_Model Objective_Spec SwathGen_Model SwathGen_Spec SwathGen_Proofs2 SwathGen_Props Robot_Model Path_Model Path_Spec
  Turning_Model Turning_Props PathPlanning_Model PathPlanning_Spec PathPlanning_Proofs PathPlanning_Props
  Container_Model Curves_Model Curves_Spec
  Plan_Model Plan_Model2 Plan_Spec Plan_Spec2 Plan_Proofs Plan_Proofs2 Plan_Proofs3 Plan_Proofs5 Plan_Props Plan_Props2 Plan_Props4.
Import ListNotations.
Open Scope R_scope.

Section Plan.
  Variable buffer : list rcell -> R -> list rcell.
  Variable inside : list (list rpoint) -> rcell -> list (list rpoint).
  Variable s_length : rswath -> R.
  Variable cs_area : list rcell -> R.
  Variable covered : list rcell -> rswath -> list rcell.
  Variable intersects : list rcell -> list rcell -> bool.
  Variable inter : list rcell -> list rcell -> list rcell.
  Variable covered_area : list rcell -> list rswath -> rswath -> R.
  Variable sched : nat -> list nat.
  Variable keq : rpoint -> rpoint -> bool.
  Variable near : rpoint -> rpoint -> rpoint -> bool.
  Variable node_order : list rpoint -> list rpoint.
  Variable edge_order : edges_t -> list (nat * nat).
  Variable solver : graph2d rpoint -> nat -> option (list nat).
  Variable clothoid : R -> R -> R * R * R.
  Variable lib_dubins : R -> R -> bool -> steer_end -> steer_end -> list steer_state.
  Variable ctl_cc : R -> R -> R -> bool -> steer_end -> steer_end -> list (R * R).
  Variable lib_cc : R -> R -> R -> bool -> steer_end -> steer_end -> list steer_state.
  Variable lib_rs : R -> R -> steer_end -> steer_end -> list steer_state.
  Variable lib_hc : R -> R -> R -> steer_end -> steer_end -> list steer_state.
  Let id_wkt : rpoint -> rpoint := fun p => p.
  Notation planner_of := (getPPTurningBasePtr lib_dubins ctl_cc lib_cc lib_rs lib_hc).
  Notation simple := (plan_simple_turn lib_dubins ctl_cc lib_cc lib_rs lib_hc).
  Notation plan fuel := (planCovRoute buffer inside id_wkt s_length cs_area covered intersects inter covered_area fuel sched
    keq near node_order edge_order solver).
  Notation path fuel := (planCovPath buffer inside id_wkt s_length cs_area covered intersects inter covered_area fuel sched
    keq near node_order edge_order solver simple clothoid).
  Notation cell_ok := (cell_ok s_length cs_area covered intersects inter covered_area inside id_wkt).

  Hypothesis HP : forall n, Permutation (sched n) (seq 0 n).
  Hypothesis Heq : equivalence keq.
  Hypothesis Hnear : forall a b n a' b' n', keq a a' = true -> keq b b' = true -> keq n n' = true -> near a b n = near a' b' n'.
  Hypothesis Hswap : forall a b n, near a b n = near b a n.
  Hypothesis Hno : forall l, Permutation (node_order l) l.
  Hypothesis Heo : forall e, Permutation (edge_order e) (edge_pairs e).
  Hypothesis Hsolve : solves solver.

  (** C251: on the conditions of plan_route_complete, with a solver that finds a round tour if there is one,
      and if the curves of the chosen planner can be used for every turn of up to 2000 km, the planner returns a path
      for every field of up to 1400 km by 1400 km whose swaths have two points or more; it drives every
      swath exactly once. *)
  Theorem plan_path_defined (rb : robot RNum) cells opt :
    0 < rb_cov_width rb -> (o_hg_alg opt = HG_CONST -> (1 <= o_hg_swaths opt)%Z) ->
    0 <= rb_max_icc rb < 2147483 -> 0 <= rb_diff_curv rb < 2147483 ->
    (forall k sg d sa ea, limits (planner_of (o_pp_alg opt)) rb k sg -> 0 <= d <= 2000000 -> 0 <= sa <= PI -> 0 <= ea < 2 * PI ->
       usable (curve_of (planner_of (o_pp_alg opt)) k sg (1 / 100) (mkEnd 0 0 sa 0 0) (mkEnd d 0 ea 0 0))) ->
    exists mainland rings, headland_parts buffer (rb_width rb) cells opt mainland rings /\
    (Forall (plannable inside opt (rb_cov_width rb)) mainland ->
     exists sbc n0, Forall2 (cell_ok opt (rb_cov_width rb)) mainland sbc /\
     forall o : pt,
     (routable id_wkt keq near (fun p => cells_closestPointOnBorderTo p rings) (concat rings) (concat sbc) ->
      rings <> [] -> rings_ok rings -> (forall c r p, In c rings -> In r c -> In p r -> around o p) ->
      (forall s, In s (concat sbc) -> (2 <= length (sw_path s))%nat /\ forall p, In p (sw_path s) -> around o p) ->
      exists p parts ks, Permutation (map fst ks) (seq 0 (length (concat sbc))) /\
        filter swath_state p = concat parts /\
        Forall2 (fun kb part => exists s, nth_error (concat sbc) (fst kb) = Some s /\
          drives (rb_cruise rb) (if snd kb : bool then rev (sw_path s) else sw_path s) part) ks parts /\
        forall fuel, (n0 <= fuel)%nat -> path fuel rb cells opt = Ok p)).
  Proof.
    intros Hw Hh Hk Hs Lib. destruct (headland_ok buffer rb cells opt Hh) as (mainland & rings & EH & PH).
    exists mainland, rings. split; auto. intro HM.
    destruct (swaths_ok inside id_wkt s_length cs_area covered intersects inter covered_area sched HP rb opt mainland Hw HM) as (sbc & n0 & F & ES).
    exists sbc, n0. split; auto. intros o HR RN RO RA SA.
    destruct (route_placed id_wkt keq near node_order edge_order solver Heq Hnear Hswap Hno Heo Hsolve rings sbc) as (r & Er & Dr & Cr); auto.
    { intros s Hin. apply in_concat in Hin. destruct Hin as (l & Hl & Hin).
      destruct (Forall2_in_r _ _ _ F l Hl) as (c & _ & a & lines & cost & _ & (_ & _ & SW) & _).
      destruct (swaths_of_width _ _ _ _ SW s Hin) as [-> _]. auto. }
    assert (EP : forall fuel, (n0 <= fuel)%nat -> plan fuel rb cells opt = Ok r).
    { intros fuel Hf. unfold planCovRoute. rewrite EH. cbn [bind fst snd]. rewrite ES by auto. exact Er. }
    assert (RI : route_in (around o) r).
    { split.
      - intros g s p Hg Hin Hp. destruct Dr as (ks & _ & D).
        destruct (Forall2_in_l _ _ _ D s) as (kb & _ & s0 & E0 & PX & _). { apply in_concat. eauto. }
        apply nth_error_In in E0. apply (proj2 (SA s0 E0)). rewrite PX in Hp. unfold id_wkt in Hp. rewrite map_id in Hp.
        destruct (snd kb); [apply in_rev in Hp|]; exact Hp.
      - intros mp p Hmp Hp. destruct (Cr mp p Hmp Hp) as (q & B).
        assert (BI := base_in (around o) (p_default RNum) rings (concat sbc) (around_convex o) RN RO RA (fun s p Hs => proj2 (SA s Hs) p)).
        assert (NS : forall s, In s (concat sbc) -> sw_path s <> []). { intros s Hin E. destruct (SA s Hin) as [L _]. rewrite E in L. simpl in L. lia. }
        destruct B as [B|B]; apply (BI NS) in B; tauto. }
    destruct (plan_path_complete buffer inside s_length cs_area covered intersects inter covered_area n0 sched keq near node_order edge_order solver
      simple clothoid rb cells opt r (concat sbc) turner_good (around o)) as (p & parts & ks & E & PK & G & FD).
    - apply EP. auto.
    - exact Dr.
    - intros s Hin. apply SA. exact Hin.
    - apply around_convex.
    - exact RI.
    - apply new_good.
    - intros t p a q b It Qp Qq. apply (turn_total _ rb Hk Hs Lib t p a q b It). eapply around_dist; eauto.
    - apply simple_turns_only.
    - exists p, parts, ks. split; [exact PK|]. split; [exact G|]. split; [exact FD|].
      assert (E0 := EP n0 (le_n _)). unfold id_wkt in E0. intros fuel Hf. revert E. unfold planCovPath. rewrite (EP fuel Hf), E0. auto.
  Qed.
End Plan.
Print Assumptions plan_path_defined.

(** ** Example: a field of 2 x 2 with two swaths, an exhaustive solver, and a library that goes straight to the end. *)
Fixpoint inserts (x : nat) (l : list nat) : list (list nat) :=
  (x :: l) :: match l with [] => [] | y :: l => map (cons y) (inserts x l) end.
Fixpoint perms (l : list nat) : list (list nat) :=
  match l with [] => [[]] | x :: l => flat_map (inserts x) (perms l) end.
Fixpoint drivable (e : edges_t) (l : list nat) : bool :=
  match l with
  | a :: ((b :: _) as t) => existsb (fun n => (fst n =? a)%nat && existsb (fun m => (fst m =? b)%nat) (snd n)) e && drivable e t
  | _ => true
  end.
Definition ex_solver (g : graph2d rpoint) (d : nat) : option (list nat) :=
  find (fun ids => drivable (g_edges (g2_graph g)) (d :: ids ++ [d])) (perms (seq 0 d)).

Lemma inserts_in x l1 l2 : In (l1 ++ x :: l2) (inserts x (l1 ++ l2)).
Proof. induction l1 as [|y l1 IH]; [destruct l2; left; reflexivity|]. cbn [app inserts]. right. apply in_map. exact IH. Qed.
Lemma inserts_perm x l l' : In l' (inserts x l) -> Permutation (x :: l) l'.
Proof.
  revert l'. induction l as [|y l IH]; intros l' H; cbn [inserts] in H; destruct H as [<-|H]; try reflexivity; [destruct H|].
  apply in_map_iff in H. destruct H as (m & <- & H). rewrite perm_swap. constructor. auto.
Qed.
Lemma perms_perm l l' : In l' (perms l) <-> Permutation l l'.
Proof.
  revert l'. induction l as [|x l IH]; intro l'; cbn [perms].
  - split; [intros [<-|[]]; reflexivity|]. intro H. apply Permutation_nil in H. left. auto.
  - rewrite in_flat_map. split.
    + intros (m & Hm & H). apply IH in Hm. rewrite Hm. apply inserts_perm. exact H.
    + intro H. destruct (in_split x l') as (l1 & l2 & ->). { apply (Permutation_in _ H). left. reflexivity. }
      exists (l1 ++ l2). split; [apply IH; apply (Permutation_cons_app_inv l1 l2 H)|apply inserts_in].
Qed.

Lemma drivable_ok e l : drivable e l = true <->
  forall i a b, nth_error l i = Some a -> nth_error l (S i) = Some b -> exists c, edge_in e a b c.
Proof.
  induction l as [|a [|b l] IH].
  - split; [intros _ [|i]; discriminate|reflexivity].
  - split; [intros _ [|[|i]]; discriminate|reflexivity].
  - change (drivable e (a :: b :: l)) with (existsb (fun n => (fst n =? a)%nat && existsb (fun m => (fst m =? b)%nat) (snd n)) e && drivable e (b :: l)).
    rewrite andb_true_iff, IH, existsb_exists. split.
    + intros [((k & m) & Hin & H) HL] [|i] x y Hx Hy; [|eapply HL; eauto]. injection Hx as <-. injection Hy as <-.
      apply andb_true_iff in H. destruct H as [H1 H2]. apply Nat.eqb_eq in H1. cbn [fst snd] in *. subst k.
      apply existsb_exists in H2. destruct H2 as ((k & c) & Hm & H2). apply Nat.eqb_eq in H2. cbn [fst] in H2. subst k. exists c, m. auto.
    + intro H. split; [|intros i x y; apply (H (S i))]. destruct (H 0%nat a b eq_refl eq_refl) as (c & m & H1 & H2).
      exists (a, m). split; [exact H1|]. cbn [fst snd]. rewrite Nat.eqb_refl. apply existsb_exists. exists (b, c). split; [exact H2|apply Nat.eqb_refl].
Qed.
Lemma ex_solves : solves ex_solver.
Proof.
  intros g d ids [H1 H2]. unfold ex_solver. assert (D : drivable (g_edges (g2_graph g)) (d :: ids ++ [d]) = true) by (apply drivable_ok; exact H2).
  destruct (find _ (perms (seq 0 d))) as [ids'|] eqn:E.
  - exists ids'. split; [reflexivity|]. apply find_some in E. destruct E as [E1 E2]. apply perms_perm in E1. split; [symmetry; exact E1|].
    apply drivable_ok. exact E2.
  - exfalso. assert (N := find_none _ _ E ids). cbn beta in N. rewrite N in D; [discriminate|]. apply perms_perm. symmetry. exact H1.
Qed.

(** A curve sampled every metre. *)
Definition ex_line (k disc : R) (forwards : bool) (from to : steer_end) : list steer_state :=
  let n := Z.to_nat (up (en_x to)) in
  map (fun i => mkSteer (en_x to * INR i / INR n) 0 (en_theta from) 1) (seq 0 (S n)).

Lemma ex_line_usable k disc fw sa d ea : 0 <= d <= 2000000 -> usable (ex_line k disc fw (mkEnd 0 0 sa 0 0) (mkEnd d 0 ea 0 0)).
Proof.
  intro Hd. unfold ex_line. cbn [en_x en_theta]. destruct (archimed d) as [U1 U2].
  assert (U : (1 <= up d <= 2000001)%Z).
  { split; [assert (0 < up d)%Z; [apply lt_IZR; lra|lia]|]. assert (up d < 2000002)%Z; [apply lt_IZR; lra|lia]. }
  set (n := Z.to_nat (up d)). assert (EN : INR n = IZR (up d)). { unfold n. rewrite INR_IZR_INZ, Z2Nat.id by lia. reflexivity. }
  assert (NP : 0 < INR n) by (rewrite EN; apply IZR_lt; lia).
  split; [|split; [|split]].
  - rewrite map_length, seq_length. unfold n. lia.
  - intros c Hc. apply in_map_iff in Hc. destruct Hc as (i & <- & _). left. reflexivity.
  - intros i c c' Hc Hc'. rewrite nth_error_map in Hc, Hc'.
    destruct (nth_error (seq 0 (S n)) i) as [j|] eqn:Ej; [|discriminate]. destruct (nth_error (seq 0 (S n)) (S i)) as [j'|] eqn:Ej'; [|discriminate].
    injection Hc as <-. injection Hc' as <-. cbn [st_x st_y].
    assert (Li : (i < S n)%nat) by (rewrite <- (seq_length (S n) 0); apply nth_error_Some; congruence).
    assert (Li' : (S i < S n)%nat) by (rewrite <- (seq_length (S n) 0); apply nth_error_Some; congruence).
    apply nth_error_nth with (d := 0%nat) in Ej, Ej'. rewrite seq_nth in Ej, Ej' by assumption. subst j j'. cbn [Nat.add].
    assert (Q : d * INR i / INR n - d * INR (S i) / INR n = - (d / INR n)) by (rewrite S_INR; field; lra). rewrite Q.
    assert (B : 0 <= d / INR n <= 1).
    { split; [apply Rmult_le_pos; [lra|apply Rlt_le, Rinv_0_lt_compat; exact NP]|]. apply (Rmult_le_reg_r (INR n)); [exact NP|]. unfold Rdiv. rewrite Rmult_assoc, Rinv_l by lra. lra. }
    nra.
  - intro L. rewrite map_length, seq_length in L. assert (D0 : 0 < d).
    { assert (2 <= up d)%Z by (unfold n in L; lia). apply IZR_le in H. lra. }
    exists (mkSteer (d * INR 0 / INR n) 0 sa 1), (mkSteer (d * INR n / INR n) 0 sa 1). split; [|split].
    + apply in_map_iff. exists 0%nat. split; [reflexivity|]. apply in_seq. lia.
    + apply in_map_iff. exists n. split; [reflexivity|]. apply in_seq. lia.
    + cbn [st_x st_y]. intro E. injection E as E. assert (Q1 : d * INR 0 / INR n = 0) by (simpl; field; lra).
      assert (Q2 : d * INR n / INR n = d) by (field; lra). lra.
Qed.

Definition two_pieces : list (list rpoint) :=
  [[mkPoint (N := RNum) 0 (/ 2) 0; mkPoint (N := RNum) 2 (/ 2) 0]; [mkPoint (N := RNum) 0 (3 / 2) 0; mkPoint (N := RNum) 2 (3 / 2) 0]].
Definition two_inside (lines : list (list rpoint)) (c : rcell) : list (list rpoint) := two_pieces.
Definition two_swaths : list rswath :=
  [mkSwath rpoint R 0 (nth 0 two_pieces []) 1 true MAINLAND; mkSwath rpoint R 1 (nth 1 two_pieces []) 1 true MAINLAND].
Definition in_sq (p : pt) : Prop := 0 <= px p <= 2 /\ 0 <= py p <= 2.
Notation sq_closest := (fun p : rpoint => cells_closestPointOnBorderTo p [rect 2 2]).

Lemma sq_convex : convex in_sq.
Proof. intros a b x s [A1 A2] [B1 B2] Hs X Y. unfold in_sq. rewrite X, Y. change (carrier RNum) with R in *. split; nra. Qed.
Lemma sq_rings : rings_ok [rect 2 2].
Proof.
  intros c [<-|[]]. split; [discriminate|]. intros r [<-|[]]. split; [simpl; lia|].
  intros a b Ha Hb. simpl in Ha, Hb. intuition (subst; reflexivity).
Qed.
Lemma sq_points c r p : In c [rect 2 2] -> In r c -> In p r -> in_sq p.
Proof. intros [<-|[]] [<-|[]] Hp. simpl in Hp. unfold in_sq. intuition (subst; cbn; lra). Qed.
Lemma two_points s p : In s two_swaths -> In p (sw_path s) -> in_sq p.
Proof. intros [<-|[<-|[]]] Hp; simpl in Hp; unfold in_sq; intuition (subst; cbn; lra). Qed.
Lemma two_base x y : base (mkPoint (N := RNum) 0 0 0) sq_closest None (concat [rect 2 2]) two_swaths x y -> in_sq x /\ in_sq y.
Proof.
  apply (base_in in_sq); [exact sq_convex|discriminate|exact sq_rings|exact sq_points|exact two_points|].
  intros s [<-|[<-|[]]]; discriminate.
Qed.
Lemma sq_dist x y : in_sq x -> in_sq y -> sqrt (dist2 x y) <= 3.
Proof.
  intros ((A & B) & (C & D)) ((A' & B') & (C' & D')). rewrite <- (sqrt_square 3) by lra. apply sqrt_le_1_alt. unfold dist2.
  change (carrier RNum) with R in *.
  assert (H1 : (px x - px y) * (px x - px y) <= 4) by nra. assert (H2 : (py x - py y) * (py x - py y) <= 4) by nra. lra.
Qed.
Lemma two_routable : routable (fun p => p) ex_keq ex_near sq_closest (concat [rect 2 2]) two_swaths.
Proof.
  assert (K : forall p q : rpoint, px p <> px q \/ py p <> py q -> ex_keq p q = false).
  { intros p q H. destruct (ex_keq p q) eqn:E; auto. apply ex_keq_spec in E. subst. destruct H; congruence. }
  assert (C : forall p, exists q, sq_closest p = Ok q).
  { intro p. destruct (closest_on_borders p [rect 2 2]) as (q & E & _); [discriminate|exact sq_rings|eauto]. }
  split; [discriminate|]. split; [|split; [|split; [|split; [|split]]]].
  - intros s [<-|[<-|[]]]; (split; [discriminate|]); split; apply ex_keq_spec; auto.
  - repeat constructor; apply K; cbn; lra.
  - intros p _. apply C.
  - intros ring [<-|[]]. discriminate.
  - intros p q Hp Hq.
    assert (J : forall n, In n (end_points (mkPoint (N := RNum) 0 0 0) two_swaths) ->
       joined ex_keq (mkPoint (N := RNum) 0 0 0) sq_closest ex_near None (concat [rect 2 2]) two_swaths n (mkPoint (N := RNum) 0 0 0)).
    { intros n Hn. destruct (C n) as (c & E).
      apply j_near with (b := mkPoint (N := RNum) 2 0 0) (m := c); [|left|reflexivity].
      - apply base_ring with (ring := hd [] (rect 2 2)) (i := 0%nat); [left|..]; reflexivity.
      - destruct Hn as [<-|[<-|[<-|[<-|[]]]]]; (apply base_first || apply base_last); auto; simpl; auto. }
    apply j_trans with (mkPoint (N := RNum) 0 0 0); [|apply j_sym]; auto.
  - exists 3. split; [lra|]. split.
    + intros x y x' y' Hx Hy. apply sq_dist; [destruct Hx as [H|H]|destruct Hy as [H|H]]; apply two_base in H; tauto.
    + cbn [length concat app rect Nat.add Nat.mul two_swaths]. rewrite INR_IZR_INZ. cbn [Z.of_nat]. simpl. lra.
Qed.

Section Ex.
  Variable s_length : rswath -> R.
  Variable cs_area : list rcell -> R.
  Variable covered : list rcell -> rswath -> list rcell.
  Variable intersects : list rcell -> list rcell -> bool.
  Variable inter : list rcell -> list rcell -> list rcell.
  Variable covered_area : list rcell -> list rswath -> rswath -> R.
  Variable clothoid : R -> R -> R * R * R.
  Variable ctl_cc : R -> R -> R -> bool -> steer_end -> steer_end -> list (R * R).
  Variable lib_cc : R -> R -> R -> bool -> steer_end -> steer_end -> list steer_state.
  Variable lib_rs : R -> R -> steer_end -> steer_end -> list steer_state.
  Variable lib_hc : R -> R -> R -> steer_end -> steer_end -> list steer_state.

  (** The planned path drives the two swaths of the field, each in one of the two directions. *)
  Example plan_path_defined_ex : exists p parts ks n0,
    Permutation (map fst ks) [0; 1]%nat /\ filter swath_state p = concat parts /\
    Forall2 (fun kb part => drives 1 (if snd kb : bool then rev (nth (fst kb) two_pieces []) else nth (fst kb) two_pieces []) part) ks parts /\
    forall fuel, (n0 <= fuel)%nat ->
      planCovPath ex_buffer two_inside (fun p => p) s_length cs_area covered intersects inter covered_area fuel (seq 0)
        ex_keq ex_near (fun l => l) edge_pairs ex_solver (plan_simple_turn ex_line ctl_cc lib_cc lib_rs lib_hc) clothoid
        ex_robot [rect 2 2] ex_options = Ok p.
  Proof.
    destruct (plan_path_defined ex_buffer two_inside s_length cs_area covered intersects inter covered_area (seq 0)
      ex_keq ex_near (fun l => l) edge_pairs ex_solver clothoid ex_line ctl_cc lib_cc lib_rs lib_hc) with
      (rb := ex_robot) (cells := [rect 2 2]) (opt := ex_options) as (mainland & rings & HP & H).
    - reflexivity.
    - apply ex_keq_equiv.
    - reflexivity.
    - reflexivity.
    - reflexivity.
    - reflexivity.
    - apply ex_solves.
    - cbn. lra.
    - discriminate.
    - cbn. lra.
    - cbn. lra.
    - intros k sg d sa ea _ Hd _ _. apply (ex_line_usable k (1 / 100) true sa d ea Hd).
    - destruct HP as [-> ->]. destruct H as (sbc & n0 & F & G).
      { constructor; [|constructor]. split; [discriminate|]. split; discriminate. }
      assert (ES : sbc = [two_swaths]).
      { inversion F as [|? l ? sbc' HC HT]; subst. inversion HT; subst. destruct HC as (a & lines & cost & _ & (_ & _ & SL & SW) & _).
        pose proof (SW 0%nat _ eq_refl) as S0. pose proof (SW 1%nat _ eq_refl) as S1. cbn beta in S0, S1. rewrite map_id in S0, S1.
        destruct l as [|s0 [|s1 [|? ?]]]; try discriminate. injection S0 as ->. injection S1 as ->. reflexivity. }
      subst sbc. assert (AR : forall p, in_sq p -> around (mkPoint (N := RNum) 0 0 0) p).
      { intros p [[A1 A2] [A3 A4]]. split; cbn; apply Rabs_le; change (carrier RNum) with R in *; lra. }
      destruct (G (mkPoint (N := RNum) 0 0 0) two_routable) as (p & parts & ks & PK & FP & FD & E); auto.
      + discriminate.
      + exact sq_rings.
      + intros c r p H1 H2 H3. apply AR. eapply sq_points; eauto.
      + intros s Hs. split; [destruct Hs as [<-|[<-|[]]]; simpl; lia|]. intros p Hp. apply AR. eapply two_points; eauto.
      + exists p, parts, ks, n0. split; [exact PK|]. split; [exact FP|]. split; [|exact E].
        clear - FD PK. assert (B : forall kb, In kb ks -> (fst kb < 2)%nat).
        { intros kb Hk. apply (in_map fst) in Hk. apply (Permutation_in _ PK) in Hk. apply in_seq in Hk. cbn in Hk. lia. }
        clear PK. induction FD as [|[k b] part ks parts (s & Es & HD) FD IH]; constructor; [|apply IH; intros x Hx; apply B; right; exact Hx].
        specialize (B _ (or_introl eq_refl)). cbn [fst snd] in *. destruct k as [|[|k]]; [| |lia]; injection Es as <-; exact HD.
  Qed.
End Ex.
