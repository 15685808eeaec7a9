(** Proofs about path planning. *)
From Coq Require Import List Arith ZArith Bool Reals Lia Lra.
From Verif Require Import Outcome Num ListAux Swath_Model Route_Model Point_Model Angle_Model Angle_Spec Angle_Proofs Angle_Proofs2 Angle_Props Objective_Model Objective_Spec
  Path_Model Path_Spec Path_Props Robot_Model Turning_Proofs PathPlanning_Model PathPlanning_Spec.
Import ListNotations.
Open Scope R_scope.

Lemma heading_angle (a b : pt) : heading a b (angleFromPoint (p_sub RNum b a)).
Proof.
  split; [rewrite angleFromPoint_eq; apply mod2_range|]. destruct (polar_xy a b) as [A B]. 
  change (R_sqrt.sqrt (dist2 a b)) with (p_distance a b). split; symmetry; assumption.
Qed.

(** Discretising keeps turns turns. *)
Lemma reduce_types d (P : Z -> Prop) : forall (p : list rstate) (s : rstate) (l : R), P (ps_type s) -> (forall x : rstate, In x p -> P (ps_type x)) ->
  forall x : rstate, In x (path_reduce_from RNum d s l p) -> P (ps_type x).
Proof.
  induction p as [|t p IH]; intros s l Hs Hp x Hx.
  - destruct Hx as [<-|[]]. exact Hs.
  - cbn [path_reduce_from] in Hx. destruct (path_same RNum d s t).
    + apply (IH s _ Hs) in Hx; auto. intros y Hy. apply Hp. right. auto.
    + destruct Hx as [<-|Hx]; [exact Hs|]. apply (IH t (ps_len t)) in Hx; auto; [apply Hp; left; auto|]. intros y Hy. apply Hp. right. auto.
Qed.

Lemma mapM_in {A B} (f : A -> outcome B) l r : mapM f l = Ok r -> forall b, In b r -> exists a, In a l /\ f a = Ok b.
Proof.
  revert r. induction l as [|a l IH]; intros r H b Hb; cbn [mapM] in H.
  - injection H as <-. contradiction.
  - destruct (f a) as [b0| | |] eqn:E; try discriminate. cbn [bind] in H. destruct (mapM f l) as [r0| | |]; try discriminate. injection H as <-.
    destruct Hb as [<-|Hb]; [exists a; split; [left|]; auto|]. destruct (IH r0 eq_refl b Hb) as (a' & I & F). exists a'. split; [right|]; auto.
Qed.

Lemma vec_index_in {A} (l : list A) i a : vec_index l i = Ok a -> In a l /\ nth_error l i = Some a.
Proof. unfold vec_index. destruct (nth_error l i) as [x|] eqn:E; [|discriminate]. intro H. injection H as <-. split; auto. eapply nth_error_In; eauto. Qed.

Lemma discretize_types p step r : path_discretize p step = Ok r -> all_turn p -> all_turn r.
Proof.
  unfold path_discretize. intros H Hp. destruct (1 <? length p)%nat; [|injection H as <-; auto]. destruct (Req_EM_T step 0) as [_|_]; [discriminate|].
  destruct (to_int (Rtrunc (10 / step * path_length RNum p))) as [n| | |]; try discriminate. cbn [bind] in H.
  destruct (path_populate p n) as [q| | |] eqn:E; try discriminate. cbn [bind] in H. injection H as <-.
  assert (Q : all_turn q).
  { unfold path_populate in E. destruct (length p <? 3)%nat; [injection E as <-; auto|].
    destruct (vec_back p) as [b| | |] eqn:Eb; try discriminate. cbn [bind] in E.
    assert (Hb : In b p). { unfold vec_back in Eb. destruct (rev p) as [|x t] eqn:Er; [discriminate|]. injection Eb as <-. apply in_rev. rewrite Er. left. auto. }
    set (kept := filter (fun s : rstate => negb (Reqb (ps_len s) 0)) p) in *.
    destruct (getAngContinuity_vec (map (@ps_angle RNum) kept ++ [ps_angle b])); try discriminate. cbn [bind] in E.
    repeat (match type of E with (do _ <- ?o; _) = _ => destruct o; [|discriminate|discriminate|discriminate] end; cbn [bind] in E).
    intros s Hs. destruct (mapM_in _ _ _ E s Hs) as (i & _ & Ei). unfold pop_state in Ei.
    repeat (match type of Ei with (do _ <- ?o; _) = _ => destruct o; [|discriminate|discriminate|discriminate] end; cbn [bind] in Ei).
    destruct (lower_bound _ _) as [|k]; [discriminate|]. destruct (vec_index (kept ++ [b]) k) as [o| | |] eqn:Eo; try discriminate. cbn [bind] in Ei. injection Ei as <-.
    cbn [ps_type]. apply vec_index_in in Eo. destruct Eo as [Eo _]. apply in_app_or in Eo. destruct Eo as [Eo|[<-|[]]]; apply Hp; [|auto].
    unfold kept in Eo. apply filter_In in Eo. tauto. }
  unfold path_reduce. destruct q as [|s q]; [intros x []|]. intros x Hx. revert x Hx. apply (reduce_types step (fun z => z = 2%Z)).
  - apply Q. left. auto.
  - intros y Hy. apply Q. right. auto.
Qed.

Lemma firstn_snoc_nth {A} (l : list A) m a : nth_error l m = Some a -> firstn (S m) l = firstn m l ++ [a].
Proof.
  revert l. induction m as [|m IH]; intros [|x l] H; try discriminate; [injection H as ->; reflexivity|].
  cbn [firstn app]. f_equal. apply IH. exact H.
Qed.

(** Weaving. *)
Lemma weave_last {A} (ps ts : list (list A)) p : length ts = length ps -> weave (ps ++ [p]) ts = weave ps ts ++ p.
Proof.
  revert ts. induction ps as [|q ps IH]; intros [|t ts] H; try discriminate; [reflexivity|]. cbn [app weave]. rewrite IH by (simpl in H; lia).
  rewrite !app_assoc. reflexivity.
Qed.
Lemma weave_snoc {A} (ps ts : list (list A)) p t : length ts = length ps -> weave (ps ++ [p]) (ts ++ [t]) = weave ps ts ++ p ++ t.
Proof.
  revert ts. induction ps as [|q ps IH]; intros [|u ts] H; try discriminate; [cbn [app weave]; rewrite app_nil_r; reflexivity|]. cbn [app weave]. rewrite IH by (simpl in H; lia).
  rewrite !app_assoc. reflexivity.
Qed.

Lemma appendSwath_drives path l v path' : path_appendSwath path l v = Ok path' -> exists r, path' = path ++ r /\ drives v l r.
Proof.
  intro H. destruct (append_swath path l v) as [A B]. destruct l as [|x l]; [rewrite A in H by reflexivity; discriminate|].
  destruct B as (r & E & L & C & _ & N); [discriminate|]. rewrite E in H. injection H as <-. exists r. split; [reflexivity|]. split; [exact L|]. split; [exact C|]. exact N.
Qed.

Lemma append_ok (p q : list rstate) : path_append RNum false p q = Ok (p ++ q).
Proof. destruct (path_additive p q) as [H _]. exact H. Qed.

Lemma outAngle_heads s a : pp_outAngle s = Ok a -> sw_path s <> [] -> heads_out (sw_path s) a.
Proof.
  unfold pp_outAngle, sw_getOutAngle. intros H N. destruct (rev (sw_path s)) as [|b [|x t]] eqn:E.
  - apply (f_equal (@rev _)) in E. rewrite rev_involutive in E. contradiction.
  - discriminate.
  - injection H as <-. apply (f_equal (@rev _)) in E. rewrite rev_involutive in E. cbn [rev] in E. rewrite <- app_assoc in E.
    exists (rev t), x, b. split; [exact E|]. apply heading_angle.
Qed.
Lemma inAngle_heads s a : pp_inAngle s = Ok a -> sw_path s <> [] -> heads_in (sw_path s) a.
Proof.
  unfold pp_inAngle, sw_getInAngle. intros H N. destruct (sw_path s) as [|b [|x t]] eqn:E; [contradiction|discriminate|].
  injection H as <-. exists b, x, t. split; [reflexivity|]. apply heading_angle.
Qed.

Section Plan.
  Variable T : Type.
  Variable turn : T -> robot RNum -> rpoint -> R -> rpoint -> R -> outcome (list rstate * T).
  Variable Inv : T -> Prop.
  Variable rb : robot RNum.
  Hypothesis Keep : forall t p a q b r t', Inv t -> turn t rb p a q b = Ok (r, t') -> Inv t'.

  (** What lies between swaths [s] and [n]. *)
  Definition between (s n : rswath) (tp : list rstate) : Prop :=
    exists t0 a b raw t1, Inv t0 /\ turn t0 rb (pp_end s) a (pp_start n) b = Ok (raw, t1) /\ path_discretize raw (1 / 10) = Ok tp /\
      (sw_path s <> [] -> heads_out (sw_path s) a) /\ (sw_path n <> [] -> heads_in (sw_path n) b).

  Lemma plan_prefix swaths t : Inv t -> forall m path t', (m <= length swaths - 1)%nat ->
    foldM (plan_step T turn rb swaths) (seq 0 m) ([], t) = Ok (path, t') ->
    Inv t' /\ exists parts turns, Forall2 (fun s p => drives (rb_cruise rb) (sw_path s) p) (firstn m swaths) parts /\ length turns = m /\
      path = weave parts turns /\
      forall i s n tp, nth_error swaths i = Some s -> nth_error swaths (S i) = Some n -> nth_error turns i = Some tp -> between s n tp.
  Proof.
    intros I m. induction m as [|m IH]; intros path t' Hm H.
    - cbn [seq foldM] in H. injection H as <- <-. split; [auto|]. exists [], []. split; [constructor|]. split; [auto|]. split; [auto|]. intros [|i] s n tp _ _ X; discriminate.
    - rewrite seq_S, foldM_snoc in H. cbn [Nat.add] in H.
      destruct (foldM (plan_step T turn rb swaths) (seq 0 m) ([], t)) as [[path0 t0]| | |]; try discriminate. cbn [bind] in H.
      destruct (IH path0 t0 ltac:(lia) eq_refl) as (I0 & parts & turns & F & L & E & N). clear IH. unfold plan_step in H.
      destruct (vec_index swaths m) as [s| | |] eqn:Es; try discriminate. cbn [bind] in H.
      destruct (path_appendSwath path0 (sw_path s) (rb_getCruiseVel RNum rb)) as [path1| | |] eqn:Ea; try discriminate. cbn [bind] in H.
      destruct (vec_index swaths (m + 1)) as [n| | |] eqn:En; try discriminate. cbn [bind] in H.
      destruct (pp_outAngle s) as [a| | |] eqn:Eo; try discriminate. cbn [bind] in H.
      destruct (pp_inAngle n) as [b| | |] eqn:Ei; try discriminate. cbn [bind] in H.
      destruct (turn t0 rb (pp_end s) a (pp_start n) b) as [[raw t1]| | |] eqn:Et; try discriminate. cbn [bind fst snd] in H.
      destruct (path_discretize raw (1 / 10)) as [tp| | |] eqn:Ed; try discriminate. cbn [bind] in H. rewrite append_ok in H. cbn [bind] in H. injection H as <- <-.
      apply appendSwath_drives in Ea. destruct Ea as (r & -> & D). apply vec_index_in in Es. destruct Es as [_ Es]. apply vec_index_in in En. destruct En as [_ En].
      replace (m + 1)%nat with (S m) in En by lia.
      assert (LP : length parts = m). { apply Forall2_length in F. rewrite firstn_length in F. lia. }
      split; [eapply Keep; eauto|]. exists (parts ++ [r]), (turns ++ [tp]). split.
      { rewrite (firstn_snoc_nth _ _ _ Es). apply Forall2_app; [exact F|]. constructor; [exact D|constructor]. }
      split; [rewrite app_length; simpl; lia|]. split; [rewrite weave_snoc by lia; rewrite E, app_assoc; reflexivity|].
      intros i s' n' tp' Hs' Hn' Htp. destruct (lt_dec i m) as [Li|Li].
      + rewrite nth_error_app1 in Htp by lia. eapply N; eauto.
      + rewrite nth_error_app2 in Htp by lia. destruct (i - length turns)%nat as [|j] eqn:Ej; [|destruct j; discriminate]. assert (i = m) by lia. subst i.
        cbn [nth_error] in Htp. injection Htp as <-. rewrite Es in Hs'. injection Hs' as <-. rewrite En in Hn'. injection Hn' as <-.
        exists t0, a, b, raw, t1. repeat split; auto; intro; [eapply outAngle_heads|eapply inAngle_heads]; eauto.
  Qed.

  Lemma plan_swaths_raw swaths t r t' : Inv t -> planPath_swaths T turn t rb swaths = Ok (r, t') ->
    Inv t' /\ exists parts turns, Forall2 (fun s p => drives (rb_cruise rb) (sw_path s) p) swaths parts /\ length turns = (length swaths - 1)%nat /\
      r = weave parts turns /\
      forall i s n tp, nth_error swaths i = Some s -> nth_error swaths (S i) = Some n -> nth_error turns i = Some tp -> between s n tp.
  Proof.
    intros I H. unfold planPath_swaths in H.
    assert (E : (if Nat.ltb 1 (length swaths) then foldM (plan_step T turn rb swaths) (seq 0 (length swaths - 1)) ([], t) else Ok ([], t))
                = foldM (plan_step T turn rb swaths) (seq 0 (length swaths - 1)) ([], t)).
    { destruct (Nat.ltb_spec 1 (length swaths)); [reflexivity|]. replace (length swaths - 1)%nat with 0%nat by lia. reflexivity. }
    rewrite E in H. clear E. destruct (foldM (plan_step T turn rb swaths) (seq 0 (length swaths - 1)) ([], t)) as [[path0 t0]| | |] eqn:E; try discriminate.
    cbn [bind] in H. destruct (plan_prefix swaths t I _ path0 t0 (Nat.le_refl _) E) as (I0 & parts & turns & F & L & W & N).
    destruct (Nat.ltb_spec 0 (length swaths)) as [P|P].
    - destruct (exists_last (l := swaths)) as (pre & s & Es); [intro Z; rewrite Z in P; simpl in P; lia|].
      rewrite Es in H. rewrite vec_back_last in H. cbn [bind] in H.
      destruct (path_appendSwath path0 (sw_path s) (rb_getCruiseVel RNum rb)) as [path1| | |] eqn:Ea; try discriminate. cbn [bind] in H. injection H as <- <-.
      apply appendSwath_drives in Ea. destruct Ea as (r & -> & D). split; [exact I0|]. exists (parts ++ [r]), turns.
      assert (LS : length swaths = S (length pre)) by (rewrite Es, app_length; simpl; lia).
      replace (length swaths - 1)%nat with (length pre) in F by lia. rewrite Es, firstn_app, firstn_all, Nat.sub_diag in F. cbn [firstn] in F. rewrite app_nil_r in F.
      pose proof (Forall2_length F) as LP.
      split; [rewrite Es; apply Forall2_app; [exact F|constructor; [exact D|constructor]]|]. split; [exact L|]. split; [rewrite weave_last by lia; rewrite W; reflexivity|exact N].
    - injection H as <- <-. split; [exact I0|]. destruct swaths; [|simpl in P; lia]. exists parts, turns. cbn [length firstn Nat.sub] in *. split; [exact F|]. auto.
  Qed.

  Lemma conn_turns_raw : forall v_con path t r t', Inv t -> conn_turns T turn rb path t v_con = Ok (r, t') ->
    (forall t0 p a q b raw t1, Inv t0 -> turn t0 rb p a q b = Ok (raw, t1) -> all_turn raw) ->
    Inv t' /\ exists c, r = path ++ c /\ all_turn c.
  Proof.
    induction v_con as [|x v IH]; intros path t r t' I H A.
    - injection H as <- <-. split; [auto|]. exists []. rewrite app_nil_r. split; [auto|]. intros s [].
    - destruct v as [|y v].
      + injection H as <- <-. split; [auto|]. exists []. rewrite app_nil_r. split; [auto|]. intros s [].
      + cbn [conn_turns] in H. destruct (turn t rb (fst x) (snd x) (fst y) (snd y)) as [[raw t1]| | |] eqn:E; try discriminate. cbn [bind fst snd] in H.
        rewrite append_ok in H. cbn [bind] in H. destruct (IH _ _ _ _ (Keep _ _ _ _ _ _ _ I E) H A) as (I' & c & -> & C). split; [exact I'|].
        exists (raw ++ c). rewrite app_assoc. split; [reflexivity|]. intros s Hs. apply in_app_or in Hs. destruct Hs as [Hs|Hs]; [exact (A _ _ _ _ _ _ _ I E s Hs)|apply C; auto].
  Qed.

  Variable clothoid : R -> R -> R * R * R.

  Lemma connection_raw s1 mp s2 t r t' : Inv t -> planPathForConnection clothoid T turn t rb s1 mp s2 = Ok (r, t') ->
    (forall t0 p a q b raw t1, Inv t0 -> turn t0 rb p a q b = Ok (raw, t1) -> all_turn raw) ->
    Inv t' /\ all_turn r.
  Proof.
    intros I H A. unfold planPathForConnection in H.
    match type of H with (do _ <- ?o; _) = _ => destruct o as [[[p1 a1]|]| | |]; try discriminate end; cbn [bind] in H; [|injection H as <- <-; split; [auto|intros s []]].
    match type of H with (do _ <- ?o; _) = _ => destruct o as [[[p2 a2]|]| | |]; try discriminate end; cbn [bind] in H; [|injection H as <- <-; split; [auto|intros s []]].
    unfold planConnection in H. destruct (simplifyConnection clothoid rb p1 a1 mp p2 a2) as [v| | |]; try discriminate. cbn [bind] in H.
    destruct (conn_turns_raw _ _ _ _ _ I H A) as (I' & c & -> & C). split; auto.
  Qed.

  Definition known (s : rstate) : Prop := ps_type s = 1%Z \/ ps_type s = 2%Z.

  Lemma turn_filter r : all_turn r -> filter swath_state r = [] /\ Forall known r.
  Proof.
    induction r as [|s r IH]; intro A; [split; constructor|]. destruct IH as [IH1 IH2]; [intros x Hx; apply A; right; auto|].
    assert (E : ps_type s = 2%Z) by (apply A; left; auto). cbn [filter]. unfold swath_state at 1. rewrite E. cbn. split; [exact IH1|]. constructor; [right; auto|auto].
  Qed.
  Lemma drives_filter v l r : drives v l r -> filter swath_state r = r /\ Forall known r.
  Proof.
    intros (L & _ & N).
    assert (Q : forall s : rstate, In s r -> ps_type s = 1%Z).
    { intros s Hs. apply In_nth_error in Hs. destruct Hs as [i Hi]. assert (i < length r)%nat by (apply nth_error_Some; congruence).
      destruct (nth_error l i) as [a|] eqn:Ea; [|apply nth_error_None in Ea; lia]. destruct (nth_error l (S i)) as [b|] eqn:Eb; [|apply nth_error_None in Eb; lia].
      destruct (N i a b Ea Eb) as (s' & Hs' & _ & _ & _ & _ & _ & Ty & _). congruence. }
    clear - Q. induction r as [|s r IH]; [split; constructor|]. destruct IH as [IH1 IH2]; [intros x Hx; apply Q; right; auto|].
    assert (E : ps_type s = 1%Z) by (apply Q; left; auto). cbn [filter]. unfold swath_state at 1. rewrite E. cbn [Z.eqb Pos.eqb]. split; [f_equal; exact IH1|constructor; [left; auto|auto]].
  Qed.
  Lemma weave_filter v : forall (swaths : list rswath) parts turns, Forall2 (fun s p => drives v (sw_path s) p) swaths parts -> (forall tp, In tp turns -> all_turn tp) ->
    (length turns <= length parts)%nat -> (length parts <= S (length turns))%nat ->
    filter swath_state (weave parts turns) = concat parts /\ Forall known (weave parts turns).
  Proof.
    intros swaths parts turns F. revert turns. induction F as [|s p ss ps D F IH]; intros turns A L1 L2.
    - destruct turns; [|simpl in L1; lia]. split; constructor.
    - destruct (drives_filter _ _ _ D) as [D1 D2]. destruct turns as [|tp turns].
      + destruct ps; [|simpl in L2; lia]. cbn [weave concat]. rewrite app_nil_r. auto.
      + cbn [weave concat]. destruct (IH turns) as [I1 I2]; [intros x Hx; apply A; right; auto|simpl in L1; lia|simpl in L2; lia|].
        destruct (turn_filter tp) as [T1 T2]; [apply A; left; auto|]. rewrite !filter_app, D1, T1, I1. split; [reflexivity|]. rewrite !Forall_app. auto.
  Qed.

  Lemma plan_swaths_filter swaths t r t' : Inv t -> planPath_swaths T turn t rb swaths = Ok (r, t') ->
    (forall t0 p a q b raw t1, Inv t0 -> turn t0 rb p a q b = Ok (raw, t1) -> all_turn raw) ->
    Inv t' /\ exists parts, Forall2 (fun s p => drives (rb_cruise rb) (sw_path s) p) swaths parts /\ filter swath_state r = concat parts /\ Forall known r.
  Proof.
    intros I H A. destruct (plan_swaths_raw _ _ _ _ I H) as (I' & parts & turns & F & L & -> & N). split; [exact I'|]. exists parts. split; [exact F|].
    pose proof (Forall2_length F) as LP.
    apply (weave_filter (rb_cruise rb) swaths); [exact F| |lia|lia]. intros tp Htp. apply In_nth_error in Htp. destruct Htp as [i Hi].
    assert (i < length turns)%nat by (apply nth_error_Some; congruence).
    destruct (nth_error swaths i) as [s|] eqn:Es; [|apply nth_error_None in Es; lia]. destruct (nth_error swaths (S i)) as [n|] eqn:En; [|apply nth_error_None in En; lia].
    destruct (N i s n tp Es En Hi) as (t0 & a & b & raw & t1 & I0 & E & D & _). eapply discretize_types; [exact D|]. eapply A; eauto.
  Qed.

  Lemma route_prefix rt t : Inv t ->
    (forall t0 p a q b raw t1, Inv t0 -> turn t0 rb p a q b = Ok (raw, t1) -> all_turn raw) ->
    forall m path t', (m <= length (r_swaths rt))%nat -> foldM (route_step clothoid T turn rb rt) (seq 0 m) ([], t) = Ok (path, t') ->
    Inv t' /\ exists parts, Forall2 (fun s p => drives (rb_cruise rb) (sw_path s) p) (concat (firstn m (r_swaths rt))) parts /\ filter swath_state path = concat parts /\ Forall known path.
  Proof.
    intros I A m. induction m as [|m IH]; intros path t' Hm H.
    - cbn [seq foldM] in H. injection H as <- <-. split; [auto|]. exists []. split; [constructor|]. split; [auto|constructor].
    - rewrite seq_S, foldM_snoc in H. cbn [Nat.add] in H. destruct (foldM (route_step clothoid T turn rb rt) (seq 0 m) ([], t)) as [[path0 t0]| | |]; try discriminate.
      cbn [bind] in H. destruct (IH path0 t0 ltac:(lia) eq_refl) as (I0 & parts & F & E & K). clear IH. unfold route_step in H.
      match type of H with (do _ <- ?o; _) = _ => destruct o as [prev| | |]; try discriminate end. cbn [bind] in H.
      destruct (r_getConnection rt m) as [mp| | |]; try discriminate. cbn [bind] in H.
      destruct (r_getSwaths rt m) as [g| | |] eqn:Eg; try discriminate. cbn [bind] in H.
      destruct (planPathForConnection clothoid T turn t0 rb prev mp g) as [[c t1]| | |] eqn:Ec; try discriminate. cbn [bind fst snd] in H. rewrite append_ok in H. cbn [bind] in H.
      destruct (planPath_swaths T turn t1 rb g) as [[q t2]| | |] eqn:Eq; try discriminate. cbn [bind fst snd] in H. rewrite append_ok in H. cbn [bind] in H. injection H as <- <-.
      destruct (connection_raw _ _ _ _ _ _ I0 Ec A) as [I1 C]. destruct (plan_swaths_filter _ _ _ _ I1 Eq A) as (I2 & ps & F2 & E2 & K2).
      destruct (turn_filter c C) as [C1 C2]. split; [exact I2|]. exists (parts ++ ps). unfold r_getSwaths in Eg. apply vec_index_in in Eg. destruct Eg as [_ Eg].
      rewrite (firstn_snoc_nth _ _ _ Eg), concat_app. cbn [concat]. rewrite app_nil_r. split; [apply Forall2_app; auto|].
      rewrite !filter_app, E, C1, E2, app_nil_r, concat_app. split; [reflexivity|]. rewrite !Forall_app. auto.
  Qed.

  Lemma plan_route_filter rt t r t' : Inv t -> planPath_route clothoid T turn t rb rt = Ok (r, t') ->
    (forall t0 p a q b raw t1, Inv t0 -> turn t0 rb p a q b = Ok (raw, t1) -> all_turn raw) ->
    Inv t' /\ exists parts, Forall2 (fun s p => drives (rb_cruise rb) (sw_path s) p) (concat (r_swaths rt)) parts /\ filter swath_state r = concat parts /\ Forall known r.
  Proof.
    intros I H A. unfold planPath_route in H.
    destruct (foldM (route_step clothoid T turn rb rt) (seq 0 (r_sizeVectorSwaths rt)) ([], t)) as [[path0 t0]| | |] eqn:E; try discriminate. cbn [bind] in H.
    destruct (route_prefix rt t I A _ path0 t0 (Nat.le_refl _) E) as (I0 & parts & F & E0 & K). rewrite firstn_all in F.
    destruct (Nat.ltb (r_sizeVectorSwaths rt) (r_sizeConnections rt)).
    - destruct (r_getLastSwaths rt) as [l| | |]; try discriminate. cbn [bind] in H. destruct (r_getLastConnection rt) as [c| | |]; try discriminate. cbn [bind] in H.
      destruct (planPathForConnection clothoid T turn t0 rb l c []) as [[q t1]| | |] eqn:Eq; try discriminate. cbn [bind fst snd] in H. rewrite append_ok in H. cbn [bind] in H. injection H as <- <-.
      destruct (connection_raw _ _ _ _ _ _ I0 Eq A) as [I1 C]. destruct (turn_filter q C) as [C1 C2]. split; [exact I1|]. exists parts. split; [exact F|].
      rewrite filter_app, E0, C1, app_nil_r. split; [reflexivity|]. rewrite Forall_app. auto.
    - injection H as <- <-. split; [exact I0|]. exists parts. auto.
  Qed.
End Plan.
