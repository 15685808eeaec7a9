(** Theorems about path planning
    (src/fields2cover/path_planning/path_planning.cpp). *)
From Coq Require Import List Arith ZArith Bool Reals Lia Lra Sorting.Sorted.
From Coq Require String.
From Verif Require Import Outcome Num ListAux Swath_Model Route_Model Route_Props Point_Model Angle_Model Angle_Spec Angle_Proofs Angle_Proofs2 Angle_Props Objective_Model Objective_Spec
  Path_Model Path_Spec Path_Proofs Path_Proofs2 Path_Props Path_Props2 Objective_Proofs2 SwathGen_Proofs2 Robot_Model Turning_Model Turning_Spec Turning_Proofs Turning_Props
  PathPlanning_Model PathPlanning_Spec PathPlanning_Proofs PathPlanning_Proofs2.
Import ListNotations.
Open Scope R_scope.

(** The generator makes turn states only (as steerStatesToPath does, see steer_to_path). *)
Definition turns_only (simple : robot RNum -> R -> R -> R -> R -> outcome (list rstate)) : Prop :=
  forall rb disc d sa ea g, simple rb disc d sa ea = Ok g -> all_turn g.

(** The planner was reached from a new one by some calls. *)
Definition reached (simple : robot RNum -> R -> R -> R -> R -> outcome (list rstate)) (t : turner) : Prop :=
  exists ops, foldM (turn_step simple) ops turner_new = Ok t.

(** Between swaths [s] and [n]: the turn made (and resampled) from the end of [s], in
    its direction there, to the start of [n], in its direction there. *)
Definition turn_between simple (rb : robot RNum) (s n : rswath) (tp : list rstate) : Prop :=
  exists t0 pre (p q : pt) post a b raw t1, reached simple t0 /\ sw_path s = pre ++ [p] /\ sw_path n = q :: post /\
    heads_out (sw_path s) a /\ heads_in (sw_path n) b /\
    createTurn simple t0 rb p a q b = Ok (raw, t1) /\ path_discretize raw (1 / 10) = Ok tp.

Lemma reached_keep simple rb t p a q b r t' : reached simple t -> createTurn simple t rb p a q b = Ok (r, t') -> reached simple t'.
Proof.
  intros [ops H] C. exists (ops ++ [OpTurn rb p a q b]). rewrite foldM_snoc, H. cbn [bind turn_step]. rewrite C. reflexivity.
Qed.

Lemma createTurn_turns simple rb : turns_only simple -> forall t p a q b raw t1, reached simple t -> createTurn simple t rb p a q b = Ok (raw, t1) -> all_turn raw.
Proof.
  intros HT t p a q b raw t1 [ops H] C. destruct (create_turn _ _ _ _ _ _ _ _ _ C) as (d & rot & sa & ea & inv & g & _ & G & Short & Long).
  assert (A : all_turn g).
  { destruct (t_using t).
    - apply cached_raw in G. destruct G as (k & _ & [[Hin _]|(_ & G & _)]); [|eapply HT; eauto].
      destruct (cache_provenance _ _ _ H) as (_ & _ & I). destruct (I k g Hin) as (pre & o & post & rb' & d' & sa' & ea' & _ & _ & S & _). eapply HT; eauto.
    - destruct G as [G _]. eapply HT; eauto. }
  destruct (le_lt_dec (length g) 1) as [L|L]; [rewrite (Short L); intros s []|].
  destruct (Long L) as (s & mid & e & s1 & mid1 & e1 & s2 & e2 & -> & -> & F & Sn1 & Sn2).
  assert (Q : all_turn (s1 :: mid1 ++ [e1])).
  { clear - F A. revert A. induction F as [|x y l l' M F IH]; intros A z Hz; [destruct Hz|]. destruct Hz as [<-|Hz]; [|apply IH; [intros w Hw; apply A; right; auto|auto]].
    destruct M as (_ & _ & _ & _ & (_ & _ & Ty & _)). rewrite Ty. apply A. left. auto. }
  intros z Hz. destruct Hz as [<-|Hz].
  - destruct Sn1 as ((_ & _ & Ty & _) & _). rewrite Ty. apply Q. left. auto.
  - apply in_app_or in Hz. destruct Hz as [Hz|[<-|[]]]; [apply Q; right; apply in_or_app; auto|].
    destruct Sn2 as ((_ & _ & Ty & _) & _). rewrite Ty. apply Q. right. apply in_or_app. right. left. auto.
Qed.

(** C57.  The planned path: the swaths one after the other, one state per segment,
    driven forward with the cruise velocity, and between two swaths the turn from the
    one to the other; so the swath states are, in order, those of the swaths, and all
    others are turn states. *)
Theorem planned_swaths : forall simple, turns_only simple -> forall t (rb : robot RNum) swaths r t', reached simple t ->
  planPath_swaths turner (createTurn simple) t rb swaths = Ok (r, t') ->
  exists parts turns, Forall2 (fun s part => drives (rb_cruise rb) (sw_path s) part) swaths parts /\
    length turns = (length swaths - 1)%nat /\ r = weave parts turns /\
    (forall i s n tp, nth_error swaths i = Some s -> nth_error swaths (S i) = Some n -> nth_error turns i = Some tp ->
       turn_between simple rb s n tp) /\
    filter swath_state r = concat parts /\ (forall s : rstate, In s r -> ps_type s = 1%Z \/ ps_type s = 2%Z).
Proof.
  intros simple HT t rb swaths r t' HR H. pose proof (reached_keep simple rb) as Keep.
  destruct (plan_swaths_raw turner (createTurn simple) (reached simple) rb Keep swaths t r t' HR H) as (_ & parts & turns & F & L & -> & N).
  exists parts, turns. split; [exact F|]. split; [exact L|]. split; [reflexivity|]. pose proof (Forall2_length F) as LP.
  assert (NE : forall i s, nth_error swaths i = Some s -> sw_path s <> []).
  { intros i s Hs. apply nth_error_In in Hs. clear - F Hs. induction F as [|x y l l' D F IH]; [destruct Hs|]. destruct Hs as [->|Hs]; auto. destruct D as (D & _). intro Z. rewrite Z in D. discriminate. }
  split.
  - intros i s n tp Hs Hn Ht. destruct (N i s n tp Hs Hn Ht) as (t0 & a & b & raw & t1 & R0 & C & D & A & B).
    pose proof (NE _ _ Hs) as Es. pose proof (NE _ _ Hn) as En. specialize (A Es). specialize (B En).
    destruct (exists_last Es) as (pre & p & Ep). destruct (sw_path n) as [|q post] eqn:Eq; [congruence|].
    exists t0, pre, p, q, post, a, b, raw, t1. split; [exact R0|]. split; [exact Ep|]. split; [first [reflexivity|exact Eq]|]. split; [exact A|]. split; [first [exact B|rewrite Eq; exact B]|].
    split; [|exact D]. unfold pp_end, pp_start, swath_endPoint, swath_startPoint in C. rewrite Ep, Eq in C.
    match type of C with createTurn _ _ _ ?x _ ?y _ = _ => assert (X : x = p); [|assert (Y : y = q); [reflexivity|]] end.
    { first [reflexivity | rewrite rev_app_distr; reflexivity | rewrite last_last; reflexivity | destruct pre; cbn [app]; [reflexivity|]; apply last_last]. }
    clear Y. rewrite X in C. exact C.
  - destruct (weave_filter (rb_cruise rb) swaths parts turns F) as [W1 W2]; [|lia|lia|split; [exact W1|rewrite Forall_forall in W2; exact W2]].
    intros tp Htp. apply In_nth_error in Htp. destruct Htp as [i Hi]. assert (i < length turns)%nat by (apply nth_error_Some; congruence).
    destruct (nth_error swaths i) as [s|] eqn:Es; [|apply nth_error_None in Es; lia]. destruct (nth_error swaths (S i)) as [n|] eqn:En; [|apply nth_error_None in En; lia].
    destruct (N i s n tp Es En Hi) as (t0 & a & b & raw & t1 & R0 & C & D & _). eapply discretize_types; [exact D|]. eapply createTurn_turns; eauto.
Qed.
Print Assumptions planned_swaths.

(** C57, routes: the swath states of the whole path are those of all swaths of all
    groups, in order; all others are turn states. *)
Theorem planned_route : forall clothoid simple, turns_only simple -> forall t (rb : robot RNum) rt r t', reached simple t ->
  planPath_route clothoid turner (createTurn simple) t rb rt = Ok (r, t') ->
  exists parts, Forall2 (fun s part => drives (rb_cruise rb) (sw_path s) part) (concat (r_swaths rt)) parts /\
    filter swath_state r = concat parts /\ (forall s : rstate, In s r -> ps_type s = 1%Z \/ ps_type s = 2%Z).
Proof.
  intros clothoid simple HT t rb rt r t' HR H.
  destruct (plan_route_filter turner (createTurn simple) (reached simple) rb (reached_keep simple rb) clothoid rt t r t' HR H) as (_ & parts & F & E & K).
  { intros t0 p a q b raw t1. apply createTurn_turns; auto. }
  exists parts. split; [exact F|]. split; [exact E|]. rewrite Forall_forall in K. exact K.
Qed.
Print Assumptions planned_route.

(** C130.  Planning is defined for every plannable route when the turns between places of a convex set with
    the points of the route are.  (The planners' cache makes keys of the distance,
    so turns over any distance are not all defined, see create_turn_defined.) *)
Theorem plan_defined : forall clothoid (T : Type) turn (Inv : T -> Prop) (rb : robot RNum) (Q : pt -> Prop), convex Q ->
  (forall t p a q b, Inv t -> Q p -> Q q -> exists r t' d, turn t rb p a q b = Ok (r, t') /\ Inv t' /\ path_discretize r (1 / 10) = Ok d) ->
  forall rt t, Inv t -> plannable rt -> route_in Q rt -> exists r t', planPath_route clothoid T turn t rb rt = Ok (r, t') /\ Inv t'.
Proof.
  intros clothoid T turn Inv rb Q CQ Tot rt t It P [R1 R2]. apply (route_ok clothoid T turn Inv rb Q CQ Tot); auto.
Qed.
Print Assumptions plan_defined.

(** A generator for the examples: two states of length 0. *)
Definition hop : robot RNum -> R -> R -> R -> R -> outcome (list rstate) := fun rb disc d sa ea =>
  Ok [mkPS (N := RNum) (mkPoint (N := RNum) 0 0 0) sa 0 1 2 (rb_getTurnVel RNum rb);
      mkPS (N := RNum) (mkPoint (N := RNum) d 0 0) ea 0 1 2 (rb_getTurnVel RNum rb)].

Lemma hop_turns : turns_only hop.
Proof. intros rb disc d sa ea g H. injection H as <-. intros s [<-|[<-|[]]]; reflexivity. Qed.

(** New planners (with cache) and places within 100 km of the origin. *)
Definition hop_inv (t : turner) : Prop := t_using t = true /\
  forall k g, In (k, g) (t_cache t) -> exists rb disc d sa ea, hop rb disc d sa ea = Ok g.
Definition near_origin (p : pt) : Prop := -100000 <= px p <= 100000 /\ -100000 <= py p <= 100000.

Lemma near_convex : convex near_origin.
Proof.
  intros a b x s [A1 A2] [B1 B2] Hs X Y. unfold near_origin. rewrite X, Y.
  assert (K : forall u v : R, -100000 <= u <= 100000 -> -100000 <= v <= 100000 -> -100000 <= v + s * (u - v) <= 100000) by (intros; nra).
  split; apply K; auto.
Qed.

Lemma hop_keep rb t p a q b r t' : hop_inv t -> createTurn hop t rb p a q b = Ok (r, t') -> hop_inv t'.
Proof.
  intros [U C] H. destruct (create_turn _ _ _ _ _ _ _ _ _ H) as (d & rot & sa & ea & inv & g & _ & G & _). rewrite U in G.
  apply cached_raw in G. destruct G as (k & _ & [[_ ->]|(_ & E & ->)]); split; auto; cbn [t_cache t_using].
  intros k' g' [K|K]; [injection K as <- <-; eauto 6|]. eauto.
Qed.

Lemma hop_total t p a q b : hop_inv t -> near_origin p -> near_origin q ->
  exists r t' d, createTurn hop t (robot_v 1) p a q b = Ok (r, t') /\ hop_inv t' /\ path_discretize r (1 / 10) = Ok d.
Proof.
  intros I0 Hp Hq. destruct (transformToNormalTurn p a q b) as [[[[d rot] sa] ea] inv] eqn:E.
  destruct (create_turn_defined hop t (robot_v 1) p a q b d rot sa ea inv E) as (r & t' & H).
  { unfold hop; eauto. }
  { intros _ x Hx. destruct (normal_turn _ _ _ _ _ _ _ _ _ E) as (Ed & _ & R1 & R2 & _). pose proof PI_RGT_0. pose proof PI_4.
    assert (D : 0 <= d <= 400000).
    { rewrite Ed. split; [apply sqrt_pos|]. rewrite <- (sqrt_square 400000) by lra. apply sqrt_le_1_alt. unfold dist2.
      destruct Hp as [[? ?] [? ?]], Hq as [[? ?] [? ?]].
      assert (K : forall u v : R, -100000 <= u <= 100000 -> -100000 <= v <= 100000 -> (u - v) * (u - v) <= 40000000000) by (intros; nra).
      assert (K1 := K (px p) (px q) ltac:(split; assumption) ltac:(split; assumption)).
      assert (K2 := K (py p) (py q) ltac:(split; assumption) ltac:(split; assumption)).
      assert (F : forall u v : R, u <= 40000000000 -> v <= 40000000000 -> u + v <= 400000 * 400000) by (intros; lra). apply F; [exact K1|exact K2]. }
    apply Rabs_def1; cbn [rb_max_icc rb_diff_curv robot_v In] in Hx; repeat (destruct Hx as [<-|Hx]; [lra|]); contradiction. }
  pose proof (hop_keep _ _ _ _ _ _ _ _ I0 H) as I1.
  destruct (create_turn _ _ _ _ _ _ _ _ _ H) as (d0 & rot0 & sa0 & ea0 & inv0 & g & _ & G & _ & Long).
  assert (Hg : exists rb disc d sa ea, hop rb disc d sa ea = Ok g).
  { destruct I0 as [U C]. rewrite U in G. apply cached_raw in G. destruct G as (k & _ & [[K _]|(_ & K & _)]); eauto 7. }
  destruct Hg as (rb' & disc' & d' & sa' & ea' & Hg). injection Hg as <-.
  destruct (Long ltac:(simpl; lia)) as (s & mid & e & s1 & mid1 & e1 & s2 & e2 & Eg & -> & F & (_ & L1 & _) & (_ & L2 & _)).
  exists (s2 :: mid1 ++ [e2]), t'. destruct mid as [|m mid]; [|destruct mid; discriminate]. cbn [app] in Eg. injection Eg as <- <-.
  inversion F as [|? ? ? ? M1 F1]; subst. destruct mid1 as [|m1 mid1]; [|destruct mid1; inversion F1 as [|? ? ? ? ? F2]; inversion F2]. inversion F1 as [|? ? ? ? M2 _]; subst. cbn [app].
  assert (Z1 : ps_len s2 = 0) by (rewrite L1; destruct M1 as (_ & _ & _ & _ & (Q & _)); rewrite Q; reflexivity).
  assert (Z2 : ps_len e2 = 0) by (rewrite L2; destruct M2 as (_ & _ & _ & _ & (Q & _)); rewrite Q; reflexivity).
  eexists. split; [exact H|]. split; [exact I1|]. apply discretize_short; [reflexivity|lra|].
  assert (PL : path_length RNum [s2; e2] = 0).
  { transitivity (0 + Rabs (ps_len s2) + Rabs (ps_len e2)); [reflexivity|]. rewrite Z1, Z2, Rabs_R0. lra. }
  rewrite PL, Rmult_0_r. replace (Rtrunc 0) with 0%Z; [lia|]. symmetry. destruct (trunc_spec 0 (Rle_refl 0)) as (A & B1 & B2).
  assert (Rtrunc 0 < 1)%Z by (apply lt_IZR; lra). lia.
Qed.
Lemma new_hop : hop_inv turner_new.
Proof. split; [reflexivity|]. intros k g []. Qed.

(** Two parallel swaths driven in opposite directions, reached over a connection. *)
Definition sw1 : rswath := mkSwath rpoint R 0 [mkPoint (N := RNum) 0 0 0; mkPoint (N := RNum) 1 0 0; mkPoint (N := RNum) 10 0 0] 1 true MAINLAND.
Definition sw2 : rswath := mkSwath rpoint R 1 [mkPoint (N := RNum) 10 1 0; mkPoint (N := RNum) 0 1 0] 1 true MAINLAND.
Definition demo_route : route rpoint R := mkRoute [[sw1; sw2]; [sw2]] [[mkPoint (N := RNum) (-3) 2 0; mkPoint (N := RNum) (-2) 0 0]; [mkPoint (N := RNum) 0 5 0]; []].

Example demo_plannable : plannable demo_route /\
  r_run [RAddPoints [mkPoint (N := RNum) (-3) 2 0; mkPoint (N := RNum) (-2) 0 0]; RAddSwaths [sw1; sw2]; RAddPoint (mkPoint (N := RNum) 0 5 0); RAddSwath sw2; RAddConnection] = Ok demo_route.
Proof.
  split; [|reflexivity]. split.
  - simpl. lia.
  - intros g s Hg Hs. simpl in Hg. destruct Hg as [<-|[<-|[]]]; simpl in Hs; intuition (subst; simpl; lia).
  - intros i mp Hi Hm. destruct i as [|[|i]]; [| |simpl in Hi; lia]; injection Hm as <-; intros [Z|Z]; try discriminate; simpl; lia.
  - intros _. split; [discriminate|]. simpl. lia.
Qed.

Lemma demo_near : route_in near_origin demo_route.
Proof.
  split.
  - intros g s p Hg Hs Hp. simpl in Hg. destruct Hg as [<-|[<-|[]]]; simpl in Hs;
      repeat (destruct Hs as [<-|Hs]; [simpl in Hp; repeat (destruct Hp as [<-|Hp]; [unfold near_origin; cbn; lra|]); destruct Hp|]); destruct Hs.
  - intros mp p Hm Hp. simpl in Hm. repeat (destruct Hm as [<-|Hm]; [simpl in Hp; repeat (destruct Hp as [<-|Hp]; [unfold near_origin; cbn; lra|]); destruct Hp|]). destruct Hm.
Qed.

Example planned_swaths_example : exists r t', planPath_swaths turner (createTurn hop) turner_new (robot_v 1) [sw1; sw2] = Ok (r, t').
Proof.
  destruct (plan_swaths_ok turner (createTurn hop) hop_inv (robot_v 1) near_origin) with (swaths := [sw1; sw2]) (t := turner_new) as (r & t' & E & _);
    [|exact new_hop| | |eauto].
  - exact hop_total.
  - intros s [<-|[<-|[]]]; simpl; lia.
  - intros s p Hs. apply (proj1 demo_near [sw1; sw2] s p); [left; reflexivity|exact Hs].
Qed.

Example planned_route_example : forall clothoid, exists r t', planPath_route clothoid turner (createTurn hop) turner_new (robot_v 1) demo_route = Ok (r, t') /\
  exists parts, filter swath_state r = concat parts /\ map (@length rstate) parts = [2; 1; 1]%nat.
Proof.
  intro clothoid. destruct (plan_defined clothoid turner (createTurn hop) hop_inv (robot_v 1) near_origin near_convex hop_total demo_route turner_new new_hop (proj1 demo_plannable) demo_near) as (r & t' & E & _).
  exists r, t'. split; [exact E|]. destruct (planned_route clothoid hop hop_turns turner_new (robot_v 1) demo_route r t' (ex_intro _ [] eq_refl : reached _ turner_new) E) as (parts & F & P & _).
  exists parts. split; [exact P|]. cbn [demo_route r_swaths concat app] in F. inversion F as [|? ? ? ? D1 F1]; subst. inversion F1 as [|? ? ? ? D2 F2]; subst. inversion F2 as [|? ? ? ? D3 F3]; subst. inversion F3; subst.
  destruct D1 as (D1 & _). destruct D2 as (D2 & _). destruct D3 as (D3 & _). cbn [sw_path sw1 sw2 length] in *. cbn [map]. injection D1 as ->. injection D2 as ->. injection D3 as ->. reflexivity.
Qed.

(** C58 is false: a route that holds a connection only is read past its end … *)
Theorem plan_connection_only_refuted : exists (h : list (rop rpoint R)) rt, r_run h = Ok rt /\
  forall clothoid T turn t rb, planPath_route clothoid T turn t rb rt = UB.
Proof.
  exists [RAddPoint (mkPoint (N := RNum) 0 0 0); RAddPoint (mkPoint (N := RNum) 1 0 0)]. eexists. split; [reflexivity|]. reflexivity.
Qed.
Print Assumptions plan_connection_only_refuted.

(** … and a route that starts from (or ends in) a single point throws. *)
Theorem plan_single_point_refuted : exists (h h' : list (rop rpoint R)) rt rt', r_run h = Ok rt /\ r_run h' = Ok rt' /\
  (forall clothoid T turn t rb, planPath_route clothoid T turn t rb rt = Throw InvalidArgument) /\
  (forall clothoid T turn t rb, planPath_route clothoid T turn t rb rt' = Throw InvalidArgument).
Proof.
  exists [RAddPoint (mkPoint (N := RNum) 0 0 0); RAddSwath sw1], [RAddSwath sw1; RAddPoint (mkPoint (N := RNum) 0 0 0)].
  do 2 eexists. split; [reflexivity|]. split; [reflexivity|]. split; reflexivity.
Qed.
Print Assumptions plan_single_point_refuted.

(** C59.  The simplified connection: the two end poses, and between them poses that
    enter bends of the connection (there is a next bend, neither coincides with this
    one), each farther than three safe distances from both ends and from the pose before
    it; none when the ends are closer than six safe distances; and otherwise each entering pose
    is in the list or within three safe distances of one that is. *)
Theorem simplified_connection : forall clothoid rb (p1 : pt) a1 mp (p2 : pt) a2,
  let safe := getSmoothTurningRadius clothoid rb in
  exists inner vp, simplifyConnection clothoid rb p1 a1 mp p2 a2 = Ok ((p1, a1) :: inner ++ [(p2, a2)]) /\ bends mp vp /\
    (forall x, In x inner -> exists a b c, consecutive vp a b c /\ 0 < dist2 b c /\ entering safe a b x) /\
    (forall x, In x inner -> away (3 * safe) (fst x) p1 /\ away (3 * safe) (fst x) p2) /\
    (inner <> [] -> chain (fun x y => away (3 * safe) (fst x) (fst y)) ((p1, a1) :: inner ++ [(p2, a2)])) /\
    (R_sqrt.sqrt (dist2 p1 p2) < 6 * safe -> inner = []) /\
    (6 * safe <= R_sqrt.sqrt (dist2 p1 p2) -> forall a b c, consecutive vp a b c -> 0 < dist2 a b -> 0 < dist2 b c -> forall x, entering safe a b x ->
      (exists y, In y inner /\ px (fst y) = px (fst x) /\ py (fst y) = py (fst x) /\ snd y = snd x) \/
      exists y, In y ((p1, a1) :: inner ++ [(p2, a2)]) /\ ~ away (3 * safe) (fst x) (fst y)).
Proof.
  intros clothoid rb p1 a1 mp p2 a2 safe. destruct (simplify_raw clothoid rb p1 a1 mp p2 a2) as (inner & vp & E & B & G & C & S & K).
  exists inner, vp. rewrite Forall_forall in G. split; [exact E|]. split; [exact B|]. split; [intros x Hx; apply G; auto|]. split; [intros x Hx; apply G; auto|]. split; [exact C|]. split; [exact S|exact K].
Qed.
Print Assumptions simplified_connection.

(** C131.  The pose leaving a bend is never added: where the robot leaves the bend
    (that is, where it would enter it coming from the next one) is within two safe distances of
    where it enters it, and the code asks for more than three. *)
Theorem exit_pose_near : forall safe (a b c : pt) x y, 0 <= safe -> entering safe a b x -> entering safe c b y ->
  R_sqrt.sqrt (dist2 (fst x) (fst y)) <= 2 * safe /\ ~ away (3 * safe) (fst y) (fst x).
Proof.
  intros safe a b c x y S X Y.
  assert (NZ : forall u v : pt, 0 < dist2 u v -> p_distance v u <> 0).
  { intros u v D. rewrite p_distance_sym. change (p_distance u v) with (R_sqrt.sqrt (dist2 u v)). pose proof (sqrt_lt_R0 _ D). lra. }
  pose proof (NZ _ _ (proj1 X)) as NX. pose proof (NZ _ _ (proj1 Y)) as NY.
  destruct (entering_unique safe a b x NX X) as (X1 & X2 & _). destruct (entering_unique safe c b y NY Y) as (Y1 & Y2 & _).
  pose proof (in_out_near safe S a b c NX NY) as N.
  assert (E : R_sqrt.sqrt (dist2 (fst y) (fst x)) <= 2 * safe). { unfold dist2. rewrite X1, X2, Y1, Y2. exact N. }
  split; [replace (dist2 (fst x) (fst y)) with (dist2 (fst y) (fst x)) by (unfold dist2; ring); exact E|unfold away; lra].
Qed.
Print Assumptions exit_pose_near.

(** C132 is false: directions just above and just below the x axis differ by
    0.02, but their numbers in [0, 2 pi) do not, and the point counts as a bend. *)
Theorem slight_bend_refuted : exists (a b c : pt) h k d, direction a b h /\ direction b c k /\ circular_distance h k d /\ d < 1 / 10 /\
  conn_corners [a; b; c] = [b].
Proof.
  set (a := mkPoint (N := RNum) 0 0 0). set (b := pointFromAngle a (1 / 100) 1). set (c := pointFromAngle b (- (1 / 100)) 1).
  pose proof PI_RGT_0 as P0. pose proof PI2_1 as P1.
  assert (H : angleFromPoint (p_sub RNum b a) = 1 / 100).
  { destruct (polar_round_trip a b) as (_ & _ & Q). destruct (Q (1 / 100) 1 ltac:(lra)) as [C _]. fold b in C.
    rewrite <- (mod2_id (1 / 100)) by lra. rewrite angleFromPoint_eq in *. apply mod2_eq_iff. eapply congruent_trans; [apply congruent_sym; apply mod2_congr|exact C]. }
  assert (K : angleFromPoint (p_sub RNum c b) = 2 * PI - 1 / 100).
  { destruct (polar_round_trip b c) as (_ & _ & Q). destruct (Q (- (1 / 100)) 1 ltac:(lra)) as [C _]. fold c in C.
    rewrite <- (mod2_id (2 * PI - 1 / 100)) by lra. rewrite angleFromPoint_eq in *. apply mod2_eq_iff.
    eapply congruent_trans; [apply congruent_sym; apply mod2_congr|]. eapply congruent_trans; [exact C|]. exists (-1)%Z. simpl. lra. }
  exists a, b, c, (1 / 100), (2 * PI - 1 / 100), (2 / 100). rewrite <- H at 1. rewrite <- K at 1. split; [apply direction_angle|]. split; [apply direction_angle|]. split; [|split; [lra|]].
  - apply (circular_congr (1 / 100) (1 / 100) (- (1 / 100)) _); [apply congruent_refl|exists (-1)%Z; simpl; lra|].
    replace (2 / 100) with (Rabs (1 / 100 - - (1 / 100))); [apply circular_small|]; rewrite Rabs_right by lra; lra.
  - cbn [conn_corners]. rewrite H, K. destruct (Rlt_dec (1 / 10) (Rabs (1 / 100 - (2 * PI - 1 / 100)))) as [L|L]; [reflexivity|].
    exfalso. apply L. rewrite Rabs_left by lra. lra.
Qed.
Print Assumptions slight_bend_refuted.

(** A stair: the pose (19, 0) entering its second step is kept. *)
Definition flat_clothoid : R -> R -> R * R * R := fun _ _ => (0, 0, 0).
Lemma flat_radius : getSmoothTurningRadius flat_clothoid (robot_v 1) = 1.
Proof.
  unfold getSmoothTurningRadius, flat_clothoid, rb_getMaxCurv, robot_v. cbn [rb_max_icc]. rewrite sin_0, cos_0.
  replace ((0 - 0 / 1) * (0 - 0 / 1) + (0 + 1 / 1) * (0 + 1 / 1)) with 1 by field. apply sqrt_1.
Qed.
Lemma east (x y d : R) : 0 < d -> heading (mkPoint (N := RNum) x y 0) (mkPoint (N := RNum) (x + d) y 0) 0.
Proof.
  intro D. pose proof PI_RGT_0. split; [lra|]. unfold dist2. cbn [px py]. replace ((x - (x + d)) * (x - (x + d)) + (y - y) * (y - y)) with (d * d) by ring.
  rewrite sqrt_square, cos_0, sin_0 by lra. lra.
Qed.
Lemma north (x y d : R) : 0 < d -> heading (mkPoint (N := RNum) x y 0) (mkPoint (N := RNum) x (y + d) 0) (PI / 2).
Proof.
  intro D. pose proof PI_RGT_0. split; [lra|]. unfold dist2. cbn [px py]. replace ((x - x) * (x - x) + (y - (y + d)) * (y - (y + d))) with (d * d) by ring.
  rewrite sqrt_square, cos_PI2, sin_PI2 by lra. lra.
Qed.

Definition stair : list pt := [mkPoint (N := RNum) 0 (-10) 0; mkPoint (N := RNum) 0 0 0; mkPoint (N := RNum) 20 0 0; mkPoint (N := RNum) 20 20 0; mkPoint (N := RNum) 40 20 0].

Example simplified_connection_example :
  let p1 := mkPoint (N := RNum) 0 (-10) 0 in let p2 := mkPoint (N := RNum) 40 20 0 in
  exists x, simplifyConnection flat_clothoid (robot_v 1) p1 0 stair p2 0 = Ok [(p1, 0); x; (p2, 0)] /\ px (fst x) = 19 /\ py (fst x) = 0.
Proof.
  intros p1 p2. pose proof PI_RGT_0. pose proof PI2_1.
  assert (N : forall a b : pt, forall h, 0 < dist2 a b -> heading a b h -> angleFromPoint (p_sub RNum b a) = h) by (intros; symmetry; apply heading_unique; auto).
  assert (A1 : angleFromPoint (p_sub RNum (mkPoint (N := RNum) 0 0 0) (mkPoint (N := RNum) 0 (-10) 0)) = PI / 2).
  { apply N; [unfold dist2; cbn [px py]; lra|]. replace (mkPoint (N := RNum) 0 0 0) with (mkPoint (N := RNum) 0 (-10 + 10) 0) by (f_equal; lra). apply north. lra. }
  assert (A2 : angleFromPoint (p_sub RNum (mkPoint (N := RNum) 20 0 0) (mkPoint (N := RNum) 0 0 0)) = 0).
  { apply N; [unfold dist2; cbn [px py]; lra|]. replace (mkPoint (N := RNum) 20 0 0) with (mkPoint (N := RNum) (0 + 20) 0 0) by (f_equal; lra). apply east. lra. }
  assert (A3 : angleFromPoint (p_sub RNum (mkPoint (N := RNum) 20 20 0) (mkPoint (N := RNum) 20 0 0)) = PI / 2).
  { apply N; [unfold dist2; cbn [px py]; lra|]. replace (mkPoint (N := RNum) 20 20 0) with (mkPoint (N := RNum) 20 (0 + 20) 0) by (f_equal; lra). apply north. lra. }
  assert (A4 : angleFromPoint (p_sub RNum (mkPoint (N := RNum) 40 20 0) (mkPoint (N := RNum) 20 20 0)) = 0).
  { apply N; [unfold dist2; cbn [px py]; lra|]. replace (mkPoint (N := RNum) 40 20 0) with (mkPoint (N := RNum) (20 + 20) 20 0) by (f_equal; lra). apply east. lra. }
  assert (C : conn_corners stair = [mkPoint (N := RNum) 0 0 0; mkPoint (N := RNum) 20 0 0; mkPoint (N := RNum) 20 20 0]).
  { unfold stair. cbn [conn_corners]. rewrite A1, A2, A3, A4.
    destruct (Rlt_dec (1 / 10) (Rabs (PI / 2 - 0))) as [L|L]; [|exfalso; apply L; rewrite Rabs_right by lra; lra].
    destruct (Rlt_dec (1 / 10) (Rabs (0 - PI / 2))) as [M|M]; [|exfalso; apply M; rewrite Rabs_left by lra; lra]. reflexivity. }
  assert (D : forall a b : pt, forall k, 0 <= k -> k * k < dist2 a b -> k < p_distance a b).
  { intros a b k K L. rewrite <- (sqrt_square k K). apply sqrt_lt_1_alt. split; [nra|exact L]. }
  set (b := mkPoint (N := RNum) 20 0 0). set (a := mkPoint (N := RNum) 0 0 0). set (c := mkPoint (N := RNum) 20 20 0).
  assert (Nb : p_distance b a = 20). { unfold p_distance, a, b. cbn [px py]. replace ((20 - 0) * (20 - 0) + (0 - 0) * (0 - 0)) with (20 * 20) by ring. apply sqrt_square. lra. }
  assert (Nc : p_distance b c <> 0). { assert (1 < p_distance b c); [apply D; [lra|unfold dist2, b, c; cbn [px py]; lra]|lra]. }
  assert (Hx : px (p_before 1 a b) = 19 /\ py (p_before 1 a b) = 0).
  { destruct (before_xy 1 a b ltac:(lra)) as [X Y]. rewrite X, Y. unfold a, b. rewrite A2. fold a b. rewrite Nb, sin_0, cos_0. rewrite Rmin_right by lra. unfold b. cbn [px py]. lra. }
  exists (p_before 1 a b, angleFromPoint (p_sub RNum b a)). cbn [fst]. split; [|exact Hx]. destruct Hx as [X Y].
  unfold simplifyConnection. rewrite flat_radius. destruct (Rlt_dec (p_distance p1 p2) (6 * 1)) as [L|L].
  { exfalso. assert (6 < p_distance p1 p2); [apply D; [lra|unfold dist2, p1, p2; cbn [px py]; lra]|lra]. }
  cbn [length stair Nat.ltb Nat.leb]. fold stair. rewrite C. cbn [length Nat.ltb Nat.leb simp_loop]. fold a b c.
  pose proof (step_eq 1 ltac:(lra) p1 p2 [] (p1, 0) a b c) as E. cbn [app] in E. unfold pose in E |- *. rewrite E. clear E. cbn [bind].
  destruct (Req_EM_T (p_distance b a) 0) as [Z|_]; [lra|]. destruct (Req_EM_T (p_distance b c) 0) as [Z|_]; [contradiction|]. cbn [fst].
  assert (F1 : 3 * 1 < p_distance (p_before 1 a b) p1). { apply D; [lra|]. unfold dist2. rewrite X, Y. unfold p1. cbn [px py]. lra. }
  assert (F2 : 3 * 1 < p_distance (p_before 1 a b) p2). { apply D; [lra|]. unfold dist2. rewrite X, Y. unfold p2. cbn [px py]. lra. }
  destruct (Rlt_dec (3 * 1) (p_distance (p_before 1 a b) p1)); [|contradiction]. destruct (Rlt_dec (3 * 1) (p_distance (p_before 1 a b) p2)); [|contradiction]. reflexivity.
Qed.

Example exit_pose_near_example : exists x y, entering 1 (mkPoint (N := RNum) 0 0 0) (mkPoint (N := RNum) 20 0 0) x /\ entering 1 (mkPoint (N := RNum) 20 (-20) 0) (mkPoint (N := RNum) 20 0 0) y.
Proof.
  exists (mkPoint (N := RNum) 19 0 0, 0), (mkPoint (N := RNum) 20 (-1) 0, PI / 2). split; (split; [unfold dist2; cbn [px py]; lra|]).
  - split; [cbn [snd]; replace (mkPoint (N := RNum) 20 0 0) with (mkPoint (N := RNum) (0 + 20) 0 0) by (f_equal; lra); apply east; lra|].
    exists 1. unfold dist2. cbn [px py fst snd]. replace ((0 - 20) * (0 - 20) + (0 - 0) * (0 - 0)) with (20 * 20) by ring. rewrite sqrt_square, Rmin_right, cos_0, sin_0 by lra. lra.
  - split; [cbn [snd]; replace (mkPoint (N := RNum) 20 0 0) with (mkPoint (N := RNum) 20 (-20 + 20) 0) by (f_equal; lra); apply north; lra|].
    exists 1. unfold dist2. cbn [px py fst snd]. replace ((20 - 20) * (20 - 20) + (-20 - 0) * (-20 - 0)) with (20 * 20) by ring. rewrite sqrt_square, Rmin_right, cos_PI2, sin_PI2 by lra. lra.
Qed.
