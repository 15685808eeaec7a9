(** Proofs about the directions, types and velocities of planned paths. *)
From Coq Require Import List Arith ZArith Bool Reals Lia Lra.
From Verif Require Import Outcome Num ListAux Swath_Model Route_Model Point_Model Angle_Model Angle_Spec
  Path_Model Path_Spec Path_Props Robot_Model Turning_Model Turning_Spec Turning_Proofs Turning_Props PathPlanning_Model PathPlanning_Spec PathPlanning_Proofs
  PathPlanning_Props.
Import ListNotations.
Open Scope R_scope.

(** The direction, type and velocity of all states satisfy [Q]. *)
Definition tagged (Q : Z -> Z -> R -> Prop) (r : list rstate) : Prop := forall s : rstate, In s r -> Q (ps_dir s) (ps_type s) (ps_vel s).

Lemma tagged_app Q a b : tagged Q a -> tagged Q b -> tagged Q (a ++ b).
Proof. intros A B s H. apply in_app_or in H. destruct H; auto. Qed.
Lemma tagged_nil Q : tagged Q [].
Proof. intros s []. Qed.

Lemma reduce_tags d (Q : Z -> Z -> R -> Prop) : forall (p : list rstate) (s : rstate) (l : R), Q (ps_dir s) (ps_type s) (ps_vel s) -> tagged Q p ->
  tagged Q (path_reduce_from RNum d s l p).
Proof.
  induction p as [|t p IH]; intros s l Hs Hp x Hx.
  - destruct Hx as [<-|[]]. exact Hs.
  - cbn [path_reduce_from] in Hx. destruct (path_same RNum d s t).
    + apply (IH s _ Hs) in Hx; auto. intros y Hy. apply Hp. right. auto.
    + destruct Hx as [<-|Hx]; [exact Hs|]. apply (IH t (ps_len t)) in Hx; auto; [apply Hp; left; auto|]. intros y Hy. apply Hp. right. auto.
Qed.

Lemma discretize_tags Q p step r : path_discretize p step = Ok r -> tagged Q p -> tagged Q r.
Proof.
  unfold path_discretize. intros H Hp. destruct (1 <? length p)%nat; [|injection H as <-; auto]. destruct (Req_EM_T step 0) as [_|_]; [discriminate|].
  destruct (to_int (Rtrunc (10 / step * path_length RNum p))) as [n| | |]; try discriminate. cbn [bind] in H.
  destruct (path_populate p n) as [q| | |] eqn:E; try discriminate. cbn [bind] in H. injection H as <-.
  assert (HQ : tagged Q q).
  { unfold path_populate in E. destruct (length p <? 3)%nat; [injection E as <-; auto|].
    destruct (vec_back p) as [b| | |] eqn:Eb; try discriminate. cbn [bind] in E.
    assert (Hb : In b p). { unfold vec_back in Eb. destruct (rev p) as [|x t] eqn:Er; [discriminate|]. injection Eb as <-. apply in_rev. rewrite Er. left. auto. }
    set (kept := filter (fun s : rstate => negb (Reqb (ps_len s) 0)) p) in *.
    destruct (getAngContinuity_vec (map (@ps_angle RNum) kept ++ [ps_angle b])); try discriminate. cbn [bind] in E.
    repeat (match type of E with (do _ <- ?o; _) = _ => destruct o; [|discriminate|discriminate|discriminate] end; cbn [bind] in E).
    intros s Hs. destruct (mapM_in _ _ _ E s Hs) as (i & _ & Ei). unfold pop_state in Ei.
    repeat (match type of Ei with (do _ <- ?o; _) = _ => destruct o; [|discriminate|discriminate|discriminate] end; cbn [bind] in Ei).
    destruct (lower_bound _ _) as [|k]; [discriminate|]. destruct (vec_index (kept ++ [b]) k) as [o| | |] eqn:Eo; try discriminate. cbn [bind] in Ei. injection Ei as <-.
    cbn [ps_type ps_dir ps_vel]. apply vec_index_in in Eo. destruct Eo as [Eo _]. apply in_app_or in Eo. destruct Eo as [Eo|[<-|[]]]; apply Hp; [|auto].
    unfold kept in Eo. apply filter_In in Eo. tauto. }
  unfold path_reduce. destruct q as [|s q]; [intros x []|]. apply reduce_tags.
  - apply HQ. left. auto.
  - intros y Hy. apply HQ. right. auto.
Qed.

Lemma drives_tags (Q : Z -> Z -> R -> Prop) v l r : Q 1%Z 1%Z v -> drives v l r -> tagged Q r.
Proof.
  intros Hq (L & _ & N) s Hs. apply In_nth_error in Hs. destruct Hs as [i Hi]. assert (i < length r)%nat by (apply nth_error_Some; congruence).
  destruct (nth_error l i) as [a|] eqn:Ea; [|apply nth_error_None in Ea; lia]. destruct (nth_error l (S i)) as [b|] eqn:Eb; [|apply nth_error_None in Eb; lia].
  destruct (N i a b Ea Eb) as (s' & Hs' & _ & _ & _ & _ & D & Ty & V). assert (s' = s) by congruence. subst s'. rewrite D, Ty, V. exact Hq.
Qed.

Lemma weave_tags Q : forall (parts turns : list (list rstate)), (forall p, In p parts -> tagged Q p) -> (forall p, In p turns -> tagged Q p) -> tagged Q (weave parts turns).
Proof.
  induction parts as [|p ps IH]; intros turns P T; [apply tagged_nil|]. cbn [weave]. destruct turns as [|t turns]; [apply P; left; auto|].
  apply tagged_app; [apply P; left; auto|]. apply tagged_app; [apply T; left; auto|]. apply IH; intros x Hx; [apply P|apply T]; right; auto.
Qed.

(** A made turn has the directions, types and velocities of the generator. *)
Lemma createTurn_tags simple rb Q : (forall disc d sa ea g, simple rb disc d sa ea = Ok g -> tagged Q g) ->
  forall t p a q b raw t1, (forall k g, In (k, g) (t_cache t) -> tagged Q g) -> createTurn simple t rb p a q b = Ok (raw, t1) ->
  tagged Q raw /\ forall k g, In (k, g) (t_cache t1) -> tagged Q g.
Proof.
  intros HT t p a q b raw t1 HC C. destruct (create_turn _ _ _ _ _ _ _ _ _ C) as (d & rot & sa & ea & inv & g & _ & G & Short & Long).
  assert (A : tagged Q g /\ forall k g', In (k, g') (t_cache t1) -> tagged Q g').
  { destruct (t_using t).
    - apply cached_raw in G. destruct G as (k & _ & [[Hin ->]|(_ & G & ->)]).
      + split; [eapply HC; eauto|exact HC].
      + pose proof (HT _ _ _ _ _ G) as HG. split; [exact HG|]. cbn [t_cache]. intros k' g' Hin.
        destruct Hin as [E|Hin]; [injection E as <- <-; exact HG|eapply HC; eauto].
    - destruct G as [G ->]. split; [eapply HT; eauto|exact HC]. }
  destruct A as [A HC']. split; [|exact HC'].
  destruct (le_lt_dec (length g) 1) as [L|L]; [rewrite (Short L); intros s []|].
  destruct (Long L) as (s & mid & e & s1 & mid1 & e1 & s2 & e2 & -> & -> & F & Sn1 & Sn2).
  assert (H : tagged Q (s1 :: mid1 ++ [e1])).
  { clear - F A. revert A. induction F as [|x y l l' M F IH]; intros A z Hz; [destruct Hz|]. destruct Hz as [<-|Hz]; [|apply IH; [intros w Hw; apply A; right; auto|auto]].
    destruct M as (_ & _ & _ & _ & (_ & Di & Ty & V)). rewrite Di, Ty, V. apply A. left. auto. }
  intros z Hz. destruct Hz as [<-|Hz].
  - destruct Sn1 as ((_ & Di & Ty & V) & _). rewrite Di, Ty, V. apply H. left. auto.
  - apply in_app_or in Hz. destruct Hz as [Hz|[<-|[]]]; [apply H; right; apply in_or_app; auto|].
    destruct Sn2 as ((_ & Di & Ty & V) & _). rewrite Di, Ty, V. apply H. right. apply in_or_app. right. left. auto.
Qed.

Section Plan.
  Variable T : Type.
  Variable turn : T -> robot RNum -> rpoint -> R -> rpoint -> R -> outcome (list rstate * T).
  Variable Inv : T -> Prop.
  Variable rb : robot RNum.
  Variable Q : Z -> Z -> R -> Prop.
  Hypothesis Keep : forall t p a q b r t', Inv t -> turn t rb p a q b = Ok (r, t') -> tagged Q r /\ Inv t'.
  Hypothesis Swath : Q 1%Z 1%Z (rb_cruise rb).
  Variable clothoid : R -> R -> R * R * R.

  Lemma keep_inv t p a q b r t' : Inv t -> turn t rb p a q b = Ok (r, t') -> Inv t'.
  Proof. intros I H. eapply Keep; eauto. Qed.

  Lemma plan_swaths_tags swaths t r t' : Inv t -> planPath_swaths T turn t rb swaths = Ok (r, t') -> Inv t' /\ tagged Q r.
  Proof.
    intros I H. destruct (plan_swaths_raw T turn Inv rb keep_inv swaths t r t' I H) as (I' & parts & turns & F & L & -> & N). split; [exact I'|].
    pose proof (Forall2_length F) as LP. apply weave_tags.
    - intros p Hp. destruct (In_nth_error _ _ Hp) as [i Hi]. clear - F Hp Swath. induction F as [|s x l l' D F IH]; [destruct Hp|].
      destruct Hp as [<-|Hp]; [eapply drives_tags; eauto|auto].
    - intros tp Htp. apply In_nth_error in Htp. destruct Htp as [i Hi]. assert (i < length turns)%nat by (apply nth_error_Some; congruence).
      destruct (nth_error swaths i) as [s|] eqn:Es; [|apply nth_error_None in Es; lia]. destruct (nth_error swaths (S i)) as [n|] eqn:En; [|apply nth_error_None in En; lia].
      destruct (N i s n tp Es En Hi) as (t0 & a & b & raw & t1 & I0 & E & D & _). eapply discretize_tags; [exact D|]. eapply Keep; eauto.
  Qed.

  Lemma conn_turns_tags : forall v_con path t r t', Inv t -> tagged Q path -> conn_turns T turn rb path t v_con = Ok (r, t') -> Inv t' /\ tagged Q r.
  Proof.
    induction v_con as [|x v IH]; intros path t r t' I P H; [injection H as <- <-; auto|].
    destruct v as [|y v]; [injection H as <- <-; auto|].
    cbn [conn_turns] in H. destruct (turn t rb (fst x) (snd x) (fst y) (snd y)) as [[raw t1]| | |] eqn:E; try discriminate. cbn [bind fst snd] in H.
    rewrite append_ok in H. cbn [bind] in H. destruct (Keep _ _ _ _ _ _ _ I E) as [K1 K2]. apply (IH _ _ _ _ K2) in H; [exact H|]. apply tagged_app; auto.
  Qed.

  Lemma connection_tags s1 mp s2 t r t' : Inv t -> planPathForConnection clothoid T turn t rb s1 mp s2 = Ok (r, t') -> Inv t' /\ tagged Q r.
  Proof.
    intros I H. unfold planPathForConnection in H.
    match type of H with (do _ <- ?o; _) = _ => destruct o as [[[p1 a1]|]| | |]; try discriminate end; cbn [bind] in H; [|injection H as <- <-; split; [auto|intros s []]].
    match type of H with (do _ <- ?o; _) = _ => destruct o as [[[p2 a2]|]| | |]; try discriminate end; cbn [bind] in H; [|injection H as <- <-; split; [auto|intros s []]].
    unfold planConnection in H. destruct (simplifyConnection clothoid rb p1 a1 mp p2 a2) as [v| | |]; try discriminate. cbn [bind] in H.
    eapply conn_turns_tags; [exact I|apply tagged_nil|exact H].
  Qed.

  Lemma plan_route_tags rt t r t' : Inv t -> planPath_route clothoid T turn t rb rt = Ok (r, t') -> Inv t' /\ tagged Q r.
  Proof.
    assert (Pre : forall l path t path' t', Inv t -> tagged Q path -> foldM (route_step clothoid T turn rb rt) l (path, t) = Ok (path', t') -> Inv t' /\ tagged Q path').
    { induction l as [|i l IH]; intros path t0 path' t0' I P H; cbn [foldM] in H; [injection H as <- <-; auto|].
      destruct (route_step clothoid T turn rb rt (path, t0) i) as [[path1 t1]| | |] eqn:E; try discriminate. cbn [bind] in H.
      enough (K : Inv t1 /\ tagged Q path1) by (destruct K as [K1 K2]; eapply IH; eauto). unfold route_step in E.
      match type of E with (do _ <- ?o; _) = _ => destruct o as [prev| | |]; try discriminate end. cbn [bind] in E.
      destruct (r_getConnection rt i) as [mp| | |]; try discriminate. cbn [bind] in E.
      destruct (r_getSwaths rt i) as [g| | |]; try discriminate. cbn [bind] in E.
      destruct (planPathForConnection clothoid T turn t0 rb prev mp g) as [[c t2]| | |] eqn:Ec; try discriminate. cbn [bind fst snd] in E. rewrite append_ok in E. cbn [bind] in E.
      destruct (planPath_swaths T turn t2 rb g) as [[q t3]| | |] eqn:Eq; try discriminate. cbn [bind fst snd] in E. rewrite append_ok in E. cbn [bind] in E. injection E as <- <-.
      destruct (connection_tags _ _ _ _ _ _ I Ec) as [I1 C]. destruct (plan_swaths_tags _ _ _ _ I1 Eq) as [I2 C2]. split; [exact I2|]. repeat apply tagged_app; auto. }
    intros I H. unfold planPath_route in H.
    destruct (foldM (route_step clothoid T turn rb rt) (seq 0 (r_sizeVectorSwaths rt)) ([], t)) as [[path0 t0]| | |] eqn:E; try discriminate. cbn [bind] in H.
    destruct (Pre _ _ _ _ _ I (tagged_nil Q) E) as [I0 P0].
    destruct (Nat.ltb (r_sizeVectorSwaths rt) (r_sizeConnections rt)).
    - destruct (r_getLastSwaths rt) as [l| | |]; try discriminate. cbn [bind] in H. destruct (r_getLastConnection rt) as [c| | |]; try discriminate. cbn [bind] in H.
      destruct (planPathForConnection clothoid T turn t0 rb l c []) as [[q t1]| | |] eqn:Eq; try discriminate. cbn [bind fst snd] in H. rewrite append_ok in H. cbn [bind] in H. injection H as <- <-.
      destruct (connection_tags _ _ _ _ _ _ I0 Eq) as [I1 C]. split; [exact I1|]. apply tagged_app; auto.
    - injection H as <- <-. auto.
  Qed.
End Plan.
