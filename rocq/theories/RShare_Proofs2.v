(** Proofs about routes that share their connections: statements and programs. *)
From Coq Require Import List Arith Bool Lia.
From Verif Require Import Outcome ListAux Swath_Model Route_Model Alias_Spec Parts_Model Parts_Spec Parts_Proofs
  Holder_Proofs Holder_Proofs2 RShare_Model RShare_Spec RShare_Proofs.
Import ListNotations.
Local Open Scope nat_scope.

Section Steps.
  Context {P W : Type}.
  Variable w_nonpos : W -> bool.
  Variable w_zero : W.
  Variable wkt : P -> P.
  Variables grow fit : nat -> nat.
  Notation heap := (list (list P)).
  Notation hroute := (hroute P W).
  Notation state := (state P W).
  Notation op := (op P W).
  Notation deref := (@RShare_Model.deref P).
  Notation step := (step w_nonpos w_zero wkt grow fit).
  Notation vstep := (vstep w_nonpos w_zero wkt).

  Lemma rread_map {A B} (F : A -> B) l x : RShare_Spec.read (map F l) x = match nth_error l x with Some a => Ok (F a) | None => Throw OutOfRange end.
  Proof. unfold RShare_Spec.read. rewrite nth_error_map. destruct (nth_error l x); reflexivity. Qed.

  Lemma views_eq (st : state) : views st = mkV (map (deref (st_heap st)) (st_pts st)) (map (hr_value (st_heap st)) (st_route st)).
  Proof. reflexivity. Qed.

  (** The heap [h'] shows what [st] shows, except in the route [r]. *)
  Definition agree (st : state) (r : nat) (h' : heap) : Prop :=
    (forall x a, nth_error (st_pts st) x = Some a -> deref h' a = deref (st_heap st) a) /\
    (forall s v i a, s <> r -> nth_error (st_route st) s = Some v -> nth_error (hr_conns v) i = Some a ->
       deref h' a = deref (st_heap st) a).

  Lemma show_put (st : state) r h' v' w : agree st r h' -> r < length (st_route st) -> hr_value h' v' = w ->
    views (put st r (h', v')) = mkV (v_pts (views st)) (replaced (v_route (views st)) r w).
  Proof.
    intros [A B] L <-. rewrite !views_eq. cbn [v_pts v_route put st_heap st_pts st_route fst snd]. f_equal.
    - apply nth_ext_error. intro x. rewrite !nth_error_map. destruct (nth_error (st_pts st) x) eqn:E; simpl; auto.
      f_equal. eapply A; eauto.
    - rewrite map_assign, assign_replaced by (rewrite map_length; exact L). rewrite <- !assign_replaced by (rewrite map_length; exact L).
      apply nth_ext_error. intro s. destruct (Nat.eq_dec r s) as [<-|N].
      + rewrite !assign_same by (rewrite map_length; exact L). reflexivity.
      + rewrite !assign_other, !nth_error_map by exact N. destruct (nth_error (st_route st) s) as [v|] eqn:E; simpl; auto.
        f_equal. apply hr_value_ext. intros a Ha. apply In_nth_error in Ha. destruct Ha as [i Hi]. eapply B; eauto.
  Qed.

  (** Old objects stay. *)
  Definition rext (h h' : heap) : Prop := length h <= length h' /\ forall a, a < length h -> deref h' a = deref h a.
  Lemma rext_refl h : rext h h.
  Proof. split; auto. Qed.
  Lemma rext_app h l : rext h (h ++ l).
  Proof. split; [rewrite app_length; lia|]. intros a Ha. apply rderef_old; exact Ha. Qed.

  Lemma wf_route (st : state) r v : well_formed st -> nth_error (st_route st) r = Some v -> rwf (st_heap st) v.
  Proof. intros [_ W2] H. rewrite Forall_forall in W2. apply W2. eapply nth_error_In; eauto. Qed.
  Lemma wf_pts (st : state) x a : well_formed st -> nth_error (st_pts st) x = Some a -> a < length (st_heap st).
  Proof. intros [W1 _] H. rewrite Forall_forall in W1. apply W1. eapply nth_error_In; eauto. Qed.
  Lemma rwf_at h (v : hroute) i a : rwf h v -> nth_error (hr_conns v) i = Some a -> a < length h.
  Proof. intros [F _] H. rewrite Forall_forall in F. apply F. eapply nth_error_In; eauto. Qed.
  Lemma holds_lt (st : state) p a : well_formed st -> holds st p a -> a < length (st_heap st).
  Proof.
    intros Wf H. destruct p as [x|r i]; cbn in H; [eapply wf_pts; eauto|]. destruct H as (v & Hv & Hi).
    eapply rwf_at; eauto. eapply wf_route; eauto.
  Qed.

  Lemma agree_rext (st : state) r h' : well_formed st -> rext (st_heap st) h' -> agree st r h'.
  Proof.
    intros Wf [_ E]. split.
    - intros x a H. apply E. eapply wf_pts; eauto.
    - intros s v i a _ H1 H2. apply E. apply (holds_lt st (InConn s i)); auto. exists v; auto.
  Qed.

  Lemma addConnection_rext h (r : hroute) : rext h (fst (h_addConnection grow h r)).
  Proof. unfold h_addConnection. destruct (_ <=? _); cbn; [apply rext_app|apply rext_refl]. Qed.

  (** What adding points does to the old objects: when the route ends with a connection its
      object gets the points; nothing else changes. *)
  Lemma append_old (h : heap) (r : hroute) l a : rwf h r -> a < length h ->
    deref (fst (h_append grow h r l)) a =
      if (length (hr_swaths r) <? length (hr_conns r)) && (a =? last (hr_conns r) 0) then deref h a ++ l else deref h a.
  Proof.
    intros R Ha. unfold h_append. pose proof (last_lt grow h r R) as L. unfold h_addConnection in *.
    destruct (length (hr_conns r) <=? length (hr_swaths r)) eqn:E; cbn [fst snd h_emplace hr_conns] in *.
    - apply Nat.leb_le in E. destruct (_ <? _) eqn:E2; [apply Nat.ltb_lt in E2; lia|]. cbn [andb].
      rewrite last_snoc in *. rewrite rderef_assign by exact L.
      destruct (a =? length h) eqn:E3; [apply Nat.eqb_eq in E3; lia|]. apply rderef_old; exact Ha.
    - apply Nat.leb_gt in E. apply Nat.ltb_lt in E. rewrite E. cbn [andb]. rewrite rderef_assign by exact L.
      destruct (a =? last (hr_conns r) 0) eqn:E3; auto. apply Nat.eqb_eq in E3. subst a. reflexivity.
  Qed.
  Lemma append_len (h : heap) (r : hroute) l : length h <= length (fst (h_append grow h r l)).
  Proof. rewrite append_heap_length. apply addConnection_rext. Qed.

  Lemma last_at (v : hroute) i : S i = length (hr_conns v) -> nth_error (hr_conns v) i = Some (last (hr_conns v) 0).
  Proof.
    intro H. destruct (hr_conns v) as [|x l] using rev_ind; [discriminate|]. rewrite app_length in H. simpl in H.
    rewrite last_snoc, nth_error_app2 by lia. replace (i - length l) with 0 by lia. reflexivity.
  Qed.

  (** Nothing else points to the last connection, when points are added to it. *)
  Definition end_alone (st : state) (r : nat) (v : hroute) (l : list P) : Prop :=
    l <> [] -> forall i, length (hr_swaths v) < length (hr_conns v) -> S i = length (hr_conns v) -> unshared st (InConn r i).

  Lemma agree_append (st : state) r v l : well_formed st -> nth_error (st_route st) r = Some v -> end_alone st r v l ->
    agree st r (fst (h_append grow (st_heap st) v l)).
  Proof.
    intros Wf Hv A. pose proof (wf_route st r v Wf Hv) as R.
    assert (K : forall p a, of_place p <> VRoute r -> holds st p a -> deref (fst (h_append grow (st_heap st) v l)) a = deref (st_heap st) a).
    { intros p a Np Hp. rewrite append_old by (auto; eapply holds_lt; eauto).
      destruct (_ && _) eqn:E; auto. apply andb_true_iff in E. destruct E as [E1 E2].
      apply Nat.ltb_lt in E1. apply Nat.eqb_eq in E2. destruct l as [|p0 l]; [apply app_nil_r|].
      destruct (length (hr_conns v)) as [|i] eqn:El; [lia|]. exfalso.
      specialize (A ltac:(discriminate) i). rewrite El in A. specialize (A E1 eq_refl p).
      rewrite A in Np; [apply Np; reflexivity|]. exists a. split; [|exact Hp]. exists v. split; [exact Hv|].
      rewrite E2. apply last_at. auto. }
    split.
    - intros x a H. apply (K (InPts x)); auto. discriminate.
    - intros s w i a N H1 H2. apply (K (InConn s i)); [cbn; congruence|]. exists w; auto.
  Qed.

  Lemma end_last_alone (st : state) r v l : nth_error (st_route st) r = Some v -> end_alone st r v l ->
    l <> [] -> length (hr_swaths v) < length (hr_conns v) -> last_alone v.
  Proof.
    intros Hv A Nl Ho i a Hi ->. destruct (length (hr_conns v)) as [|k] eqn:E; [lia|].
    specialize (A Nl k). rewrite E in A. specialize (A Ho eq_refl (InConn r i)).
    assert (Q : InConn r i = InConn r k). { apply A. exists (last (hr_conns v) 0). split; exists v; split; auto. apply last_at; auto. }
    congruence.
  Qed.

  Lemma show_append (st : state) r v l : well_formed st -> nth_error (st_route st) r = Some v -> end_alone st r v l ->
    views (put st r (h_append grow (st_heap st) v l)) =
    mkV (v_pts (views st)) (replaced (v_route (views st)) r (r_append (hr_value (st_heap st) v) l)).
  Proof.
    intros Wf Hv A. rewrite (surjective_pairing (h_append _ _ _ _)). apply show_put.
    - apply agree_append; auto.
    - apply nth_error_Some; congruence.
    - apply append_value; [eapply wf_route; eauto|]. eapply end_last_alone; eauto.
  Qed.

  Lemma show_pts (st : state) h' x a c : well_formed st -> rext (st_heap st) h' -> x < length (st_pts st) -> deref h' a = c ->
    views (mkState h' (assign (st_pts st) x a) (st_route st)) = mkV (replaced (v_pts (views st)) x c) (v_route (views st)).
  Proof.
    intros Wf [_ E] L <-. rewrite !views_eq. cbn [v_pts v_route st_heap st_pts st_route]. f_equal.
    - rewrite <- assign_replaced by (rewrite map_length; exact L).
      apply nth_ext_error. intro y. destruct (Nat.eq_dec x y) as [<-|N].
      + rewrite assign_same by (rewrite map_length; exact L). rewrite nth_error_map, assign_same by exact L. reflexivity.
      + rewrite assign_other, !nth_error_map, assign_other by exact N. destruct (nth_error (st_pts st) y) eqn:Ey; simpl; auto.
        f_equal. apply E. eapply wf_pts; eauto.
    - apply map_ext_in. intros v Hv. apply hr_value_ext. intros b Hb. apply E.
      destruct Wf as [_ W2]. rewrite Forall_forall in W2. destruct (W2 v Hv) as [F _]. rewrite Forall_forall in F. auto.
  Qed.

  Lemma show_addPoint (st : state) x a p : well_formed st -> nth_error (st_pts st) x = Some a -> unshared st (InPts x) ->
    views (mkState (h_addPoint (st_heap st) a p) (st_pts st) (st_route st)) =
    mkV (replaced (v_pts (views st)) x (deref (st_heap st) a ++ [p])) (v_route (views st)).
  Proof.
    intros Wf Hx U. pose proof (wf_pts st x a Wf Hx) as La.
    assert (Lx : x < length (st_pts st)) by (apply nth_error_Some; congruence).
    rewrite !views_eq. cbn [v_pts v_route st_heap st_pts st_route]. unfold h_addPoint. f_equal.
    - rewrite <- assign_replaced by (rewrite map_length; exact Lx).
      apply nth_ext_error. intro y. rewrite nth_error_map. destruct (Nat.eq_dec x y) as [<-|N].
      + rewrite Hx, assign_same by (rewrite map_length; exact Lx). simpl. rewrite rderef_assign, Nat.eqb_refl by exact La. reflexivity.
      + rewrite assign_other, nth_error_map by exact N. destruct (nth_error (st_pts st) y) as [b|] eqn:Ey; simpl; auto.
        rewrite rderef_assign by exact La. destruct (b =? a) eqn:Eb; auto. apply Nat.eqb_eq in Eb. subst b.
        specialize (U (InPts y)). exfalso. apply N.
        assert (Q : InPts y = InPts x) by (apply U; exists a; split; auto). congruence.
    - apply nth_ext_error. intro r. rewrite !nth_error_map. destruct (nth_error (st_route st) r) as [v|] eqn:Ev; simpl; auto.
      f_equal. apply hr_value_ext. intros b Hb. rewrite rderef_assign by exact La. destruct (b =? a) eqn:Eb; auto.
      apply Nat.eqb_eq in Eb. subst b. apply In_nth_error in Hb. destruct Hb as [i Hi].
      specialize (U (InConn r i)). assert (Q : InConn r i = InPts x) by (apply U; exists a; split; [exact Hx|exists v; auto]). discriminate Q.
  Qed.

  Lemma assign_id {B} (l : list B) x b : nth_error l x = Some b -> assign l x b = l.
  Proof.
    intro H. apply nth_ext_error. intro i. destruct (Nat.eq_dec x i) as [<-|N]; [|apply assign_other; exact N].
    rewrite assign_same; auto. apply nth_error_Some. congruence.
  Qed.
  Lemma vec_set_assign {B} (l : list B) i b : i < length l -> vec_set l i b = Ok (assign l i b).
  Proof.
    intro H. unfold vec_set. destruct (nth_error l i) eqn:E; [|apply nth_error_None in E; lia].
    rewrite assign_replaced by exact H. reflexivity.
  Qed.

  Lemma vec_set_out {B} (l : list B) i b : length l <= i -> vec_set l i b = UB.
  Proof. intro H. unfold vec_set. destruct (nth_error l i) eqn:E; auto. assert (i < length l) by (apply nth_error_Some; congruence). lia. Qed.

  Lemma show_editConn (st : state) r v i a p : well_formed st -> nth_error (st_route st) r = Some v -> nth_error (hr_conns v) i = Some a ->
    unshared st (InConn r i) ->
    views (mkState (h_addPoint (st_heap st) a p) (st_pts st) (st_route st)) =
    mkV (v_pts (views st)) (replaced (v_route (views st)) r
      (mkRoute (hr_swaths v) (assign (map (deref (st_heap st)) (hr_conns v)) i (deref (st_heap st) a ++ [p])))).
  Proof.
    intros Wf Hv Hi U. assert (La : a < length (st_heap st)) by (eapply rwf_at; eauto; eapply wf_route; eauto).
    transitivity (views (put st r (h_addPoint (st_heap st) a p, v))).
    { unfold put. cbn [fst snd]. rewrite assign_id by exact Hv. reflexivity. }
    assert (Li : i < length (hr_conns v)) by (apply nth_error_Some; congruence).
    apply show_put; [| apply nth_error_Some; congruence|].
    - split.
      + intros x b Hx. unfold h_addPoint. rewrite rderef_assign by exact La. destruct (b =? a) eqn:E; auto.
        apply Nat.eqb_eq in E. subst b. specialize (U (InPts x)). assert (Q : InPts x = InConn r i) by (apply U; exists a; split; [exists v; auto|exact Hx]). discriminate Q.
      + intros s w k b N Hs Hk. unfold h_addPoint. rewrite rderef_assign by exact La. destruct (b =? a) eqn:E; auto.
        apply Nat.eqb_eq in E. subst b. specialize (U (InConn s k)). exfalso. apply N.
        assert (Q : InConn s k = InConn r i) by (apply U; exists a; split; [exists v; auto|exists w; auto]). congruence.
    - unfold hr_value, h_addPoint. f_equal. apply nth_ext_error. intro k. destruct (Nat.eq_dec i k) as [<-|N].
      + rewrite assign_same by (rewrite map_length; exact Li). rewrite nth_error_map, Hi. simpl.
        rewrite rderef_assign, Nat.eqb_refl by exact La. reflexivity.
      + rewrite assign_other, !nth_error_map by exact N. destruct (nth_error (hr_conns v) k) as [b|] eqn:Ek; simpl; auto.
        rewrite rderef_assign by exact La. destruct (b =? a) eqn:E; auto. apply Nat.eqb_eq in E. subst b.
        specialize (U (InConn r k)). exfalso. apply N.
        assert (Q : InConn r k = InConn r i) by (apply U; exists a; split; exists v; auto). congruence.
  Qed.

  (** A function on a route that changes no old object. *)
  Definition apart_fn (h : heap) (v : hroute) (s : outcome (heap * hroute)) (w : outcome (route P W)) : Prop :=
    orel (fun hv b => rext h (fst hv) /\ hr_value (fst hv) (snd hv) = b) s w.

  Lemma emplace0_value (h : heap) (v : hroute) : rwf h v ->
    let s := if length (hr_conns v) =? 0 then h_emplace grow h v else (h, v) in
    rext h (fst s) /\ hr_swaths (snd s) = hr_swaths v /\
    map (deref (fst s)) (hr_conns (snd s)) = (if length (hr_conns v) =? 0 then map (deref h) (hr_conns v) ++ [[]] else map (deref h) (hr_conns v)).
  Proof.
    intros R. destruct (length (hr_conns v) =? 0); cbn [fst snd h_emplace hr_swaths hr_conns].
    - split; [apply rext_app|]. split; auto. rewrite map_app. cbn [map]. rewrite rderef_new. f_equal.
      apply map_ext_in. intros a Ha. apply rderef_old. destruct R as [F _]. rewrite Forall_forall in F. auto.
    - split; [apply rext_refl|]. auto.
  Qed.

  Lemma addSwaths_fn (h : heap) (v : hroute) l : rwf h v -> apart_fn h v (h_addSwaths grow h v l) (r_addSwaths (hr_value h v) l).
  Proof.
    intro R. unfold apart_fn, h_addSwaths, r_addSwaths, r_sizeConnections, r_sizeVectorSwaths. cbn [hr_value r_swaths r_conns].
    rewrite map_length. destruct (emplace0_value h v R) as (E & S & M). cbv zeta in *.
    destruct (if length (hr_conns v) =? 0 then h_emplace grow h v else (h, v)) as [h1 r1]. cbn [fst snd] in *.
    rewrite <- M, map_length, S. destruct (_ <? _).
    - constructor. cbn [fst snd]. split; [exact E|]. reflexivity.
    - destruct (upd_back _ _) as [w| | |]; cbn [bind]; constructor. split; [exact E|]. reflexivity.
  Qed.
  Lemma addSwath_fn (h : heap) (v : hroute) l : rwf h v -> apart_fn h v (h_addSwath grow h v l) (r_addSwath (hr_value h v) l).
  Proof.
    intro R. unfold apart_fn, h_addSwath, r_addSwath, r_sizeConnections, r_sizeVectorSwaths. cbn [hr_value r_swaths r_conns].
    rewrite map_length. destruct (emplace0_value h v R) as (E & S & M). cbv zeta in *.
    assert (N : length (hr_conns (snd (if length (hr_conns v) =? 0 then h_emplace grow h v else (h, v)))) =
      if length (hr_conns v) =? 0 then length (hr_conns v) + 1 else length (hr_conns v)).
    { destruct (length (hr_conns v) =? 0); cbn; auto. rewrite app_length. reflexivity. }
    destruct (if length (hr_conns v) =? 0 then h_emplace grow h v else (h, v)) as [h1 r1]. cbn [fst snd] in *.
    rewrite <- M, <- N, S. destruct (upd_back _ _) as [w| | |]; cbn [bind]; constructor. split; [exact E|]. reflexivity.
  Qed.
  Lemma map_seq_new (h : heap) (m : heap) : map (deref (h ++ m)) (seq (length h) (length m)) = m.
  Proof.
    apply nth_ext_error. intro i. rewrite nth_error_map. destruct (le_lt_dec (length m) i) as [G|G].
    - rewrite (proj2 (nth_error_None _ _)) by (rewrite seq_length; exact G). symmetry. apply nth_error_None; exact G.
    - rewrite (nth_error_nth' (seq (length h) (length m)) 0) by (rewrite seq_length; exact G). rewrite seq_nth by exact G.
      simpl. unfold RShare_Model.deref. rewrite app_nth2 by lia. replace (length h + i - length h) with i by lia.
      symmetry. apply nth_error_nth'. exact G.
  Qed.
  Lemma clone_fn (h : heap) (v : hroute) : apart_fn h v (h_clone w_nonpos w_zero wkt fit h v) (r_clone w_nonpos w_zero wkt (hr_value h v)).
  Proof.
    unfold apart_fn, h_clone, r_clone. cbn [hr_value r_swaths r_conns].
    destruct (mapM _ _) as [w| | |]; cbn [bind]; constructor. cbn [fst snd]. split; [apply rext_app|].
    unfold hr_value. cbn [hr_swaths hr_conns]. f_equal.
    rewrite map_map. replace (length (hr_conns v)) with (length (map (fun a => map wkt (deref h a)) (hr_conns v))) by apply map_length.
    apply map_seq_new.
  Qed.

  Definition shown (st : state) (v : vstate) : Prop := views st = v.

  Lemma put_fn (st : state) r v s w : well_formed st -> nth_error (st_route st) r = Some v -> apart_fn (st_heap st) v s w ->
    orel shown (do hv <- s; Ok (put st r hv)) (do b <- w; set_route (views st) r b).
  Proof.
    intros Wf Hv A. inversion A as [[h' v'] b [E V]| | | ]; cbn [bind]; try constructor.
    unfold set_route. rewrite views_eq at 1. cbn [v_route]. rewrite rread_map, Hv. cbn [bind]. constructor.
    apply show_put; [apply agree_rext; auto|apply nth_error_Some; congruence|exact V].
  Qed.

  Lemma route_var (st : state) r : match nth_error (st_route st) r with
    | Some v => var (st_route st) r = Ok v /\ RShare_Spec.read (v_route (views st)) r = Ok (hr_value (st_heap st) v)
    | None => var (st_route st) r = Throw OutOfRange /\ RShare_Spec.read (v_route (views st)) r = Throw OutOfRange end.
  Proof.
    rewrite views_eq. cbn [v_route]. rewrite rread_map. unfold var, vec_at. destruct (nth_error (st_route st) r); auto.
  Qed.
  Lemma pts_var (st : state) x : match nth_error (st_pts st) x with
    | Some a => var (st_pts st) x = Ok a /\ RShare_Spec.read (v_pts (views st)) x = Ok (deref (st_heap st) a)
    | None => var (st_pts st) x = Throw OutOfRange /\ RShare_Spec.read (v_pts (views st)) x = Throw OutOfRange end.
  Proof.
    rewrite views_eq. cbn [v_pts]. rewrite rread_map. unfold var, vec_at. destruct (nth_error (st_pts st) x); auto.
  Qed.
End Steps.

Ltac rvar r :=
  match goal with |- context [var (st_route ?st) r] =>
    let E := fresh "E" in let v := fresh "v" in let A := fresh "A" in let B := fresh "B" in
    pose proof (route_var st r) as E; destruct (nth_error (st_route st) r) as [v|] eqn:A; destruct E as [B E];
    rewrite ?B, ?E; cbn [bind]; [|unfold set_pts, set_route; rewrite ?E; constructor] end.
Ltac pvar x :=
  match goal with |- context [var (st_pts ?st) x] =>
    let E := fresh "E" in let v := fresh "v" in let A := fresh "A" in let B := fresh "B" in
    pose proof (pts_var st x) as E; destruct (nth_error (st_pts st) x) as [v|] eqn:A; destruct E as [B E];
    rewrite ?B, ?E; cbn [bind]; [|unfold set_pts, set_route; rewrite ?E; constructor] end.

Section Steps2.
  Context {P W : Type}.
  Variable w_nonpos : W -> bool.
  Variable w_zero : W.
  Variable wkt : P -> P.
  Variables grow fit : nat -> nat.
  Notation heap := (list (list P)).
  Notation hroute := (hroute P W).
  Notation state := (state P W).
  Notation op := (op P W).
  Notation deref := (@RShare_Model.deref P).
  Notation step := (step w_nonpos w_zero wkt grow fit).
  Notation vstep := (vstep w_nonpos w_zero wkt).

  Lemma set_pts_ok (st : state) h' x a c (b : nat) : well_formed st -> nth_error (st_pts st) x = Some b -> rext (st_heap st) h' -> deref h' a = c ->
    orel shown (Ok (mkState h' (assign (st_pts st) x a) (st_route st))) (set_pts (views (W := W) st) x c).
  Proof.
    intros Wf Hx E D. unfold set_pts. rewrite views_eq at 1. cbn [v_pts]. rewrite rread_map, Hx. cbn [bind]. constructor.
    apply show_pts; auto. apply nth_error_Some; congruence.
  Qed.
  Lemma set_route_ok (st : state) r h' v v' w : well_formed st -> nth_error (st_route st) r = Some v -> rext (st_heap st) h' -> hr_value h' v' = w ->
    orel shown (Ok (put st r (h', v'))) (set_route (views (W := W) st) r w).
  Proof.
    intros Wf Hv E D. apply (put_fn st r v (Ok (h', v')) (Ok w) Wf Hv). constructor. auto.
  Qed.
  Lemma append_ok (st : state) r v l : well_formed st -> nth_error (st_route st) r = Some v -> end_alone st r v l ->
    orel shown (Ok (put st r (h_append grow (st_heap st) v l))) (set_route (views (W := W) st) r (r_append (hr_value (st_heap st) v) l)).
  Proof.
    intros Wf Hv A. unfold set_route. rewrite views_eq at 1. cbn [v_route]. rewrite rread_map, Hv. cbn [bind]. constructor.
    apply show_append; auto.
  Qed.
  Lemma value_balanced h (v : hroute) : rwf h v -> length (r_swaths (hr_value h v)) <= length (r_conns (hr_value h v)).
  Proof. intros [_ B]. cbn. rewrite map_length. exact B. Qed.

  Lemma step_same (st : state) o : well_formed st -> (forall p l, writes st o p l -> l <> [] -> unshared st p) -> ~ dangles st o ->
    orel shown (step st o) (vstep (views st) o).
  Proof.
    intros Wf U D. destruct o as [x l|x y|x p|r|r s|r s|r i x|r i x|r i p|r|r p|r x|r l|r i|r s|r l|r i l]; cbn [RShare_Model.step RShare_Spec.vstep].
    - pvar x. eapply set_pts_ok; eauto; [apply rext_app|apply rderef_new].
    - pvar x. pvar y. eapply set_pts_ok; eauto; apply rext_refl.
    - pvar x. unfold set_pts. rewrite E. cbn [bind]. constructor. apply show_addPoint; auto.
      apply (U _ [p]); [|discriminate]. exists p; auto.
    - rvar r. eapply set_route_ok; [exact Wf|eassumption|apply rext_refl|reflexivity].
    - rvar r. rvar s. eapply set_route_ok; [exact Wf|eassumption|apply rext_refl|reflexivity].
    - rvar r. rvar s. eapply put_fn; eauto. apply clone_fn.
    - rvar r. pvar x. unfold r_getConnection, vec_index. cbn [hr_value r_conns]. rewrite nth_error_map.
      destruct (nth_error (hr_conns v) i) as [a|] eqn:Ei; cbn [option_map bind]; [|constructor].
      eapply set_pts_ok; eauto. apply rext_refl.
    - rvar r. pvar x. unfold r_setConnection. cbn [hr_value r_conns r_swaths].
      destruct (le_lt_dec (length (hr_conns v)) i) as [G|G].
      + rewrite !vec_set_out by (rewrite ?map_length; exact G). constructor.
      + rewrite !vec_set_assign by (rewrite ?map_length; exact G). cbn [bind]. eapply set_route_ok; [exact Wf|eassumption|apply rext_refl|].
        unfold hr_value. cbn [hr_swaths hr_conns]. f_equal. apply map_assign.
    - rvar r. unfold r_getConnection, r_setConnection, vec_index. cbn [hr_value r_conns r_swaths]. rewrite nth_error_map.
      destruct (nth_error (hr_conns v) i) as [a|] eqn:Ei; cbn [option_map bind]; [|constructor].
      rewrite vec_set_assign by (rewrite map_length; apply nth_error_Some; congruence). cbn [bind].
      unfold set_route. rewrite E. cbn [bind]. constructor. apply show_editConn; auto.
      apply (U _ [p]); [|discriminate]. left. exists p; auto.
    - rvar r. rewrite (surjective_pairing (h_addConnection grow _ _)). eapply set_route_ok; [exact Wf|eassumption|apply addConnection_rext|].
      apply addConnection_value. eapply wf_route; eauto.
    - rvar r. rewrite point_append, r_point_append. cbn [bind]. apply append_ok; auto.
      intros N i H1 H2. apply (U _ [p]); auto. right. split; [split; auto|]. exists v; auto.
    - rvar r. pvar x. rewrite points_append, r_points_append; cycle 1.
      { eapply value_balanced, wf_route; eauto. } { eapply wf_route; eauto. } { eapply wf_pts; eauto. }
      cbn [bind]. apply append_ok; auto. intros N i H1 H2. apply (U _ (deref (st_heap st) v0)); auto. right.
      split; [|exists v; auto]. split; auto. exists v0. split; auto.
    - rvar r. rewrite vec_append, r_points_append; cycle 1.
      { eapply value_balanced, wf_route; eauto. } { eapply wf_route; eauto. }
      cbn [bind]. apply append_ok; auto. intros N i H1 H2. apply (U _ l); auto. right. split; [split; auto|]. exists v; auto.
    - rvar r. unfold h_addConnection_own, r_getConnection, vec_index. cbn [hr_value r_conns]. rewrite nth_error_map.
      destruct (nth_error (hr_conns v) i) as [a|] eqn:Ei; cbn [option_map bind]; [|constructor].
      destruct (_ && _ && _) eqn:Ed.
      { exfalso. apply D. apply andb_true_iff in Ed. destruct Ed as [Ed E3]. apply andb_true_iff in Ed. destruct Ed as [E1 E2].
        apply Nat.leb_le in E1. apply Nat.leb_le in E2. apply negb_true_iff in E3. apply Nat.eqb_neq in E3.
        exists v, a. auto. }
      rewrite points_append; cycle 1. { eapply wf_route; eauto. } { eapply rwf_at; eauto. eapply wf_route; eauto. }
      change (mkRoute (hr_swaths v) (map (deref (st_heap st)) (hr_conns v))) with (hr_value (st_heap st) v).
      rewrite r_points_append by (eapply value_balanced, wf_route; eauto). cbn [bind].
      apply append_ok; auto. intros N k H1 H2. apply (U _ (deref (st_heap st) a)); auto. right.
      split; [|exists v; auto]. split; auto. exists a. split; [exists v; auto|reflexivity].
    - rvar r. eapply put_fn; eauto. apply addSwath_fn. eapply wf_route; eauto.
    - rvar r. eapply put_fn; eauto. apply addSwaths_fn. eapply wf_route; eauto.
    - rvar r. unfold r_setSwaths. cbn [hr_value r_conns r_swaths].
      destruct (vec_set (hr_swaths v) i l) eqn:Es; cbn [bind]; try constructor. eapply set_route_ok; [exact Wf|eassumption|apply rext_refl|reflexivity].
  Qed.
End Steps2.
