(** Proofs about fields that share their cells: statements and programs. *)
From Coq Require Import Ascii String List Arith Bool Reals Lia.
From Verif Require Import Outcome Num Point_Model Angle_Model Container_Model Text_Model Field_Model Transform_Model
  Alias_Spec Parts_Model Parts_Spec Parts_Proofs Holder_Model Holder_Spec Holder_Proofs.
Import ListNotations.
Local Open Scope nat_scope.

Lemma map_assign {A B} (F : A -> B) l x b : map F (assign l x b) = assign (map F l) x (F b).
Proof. revert x. induction l; intros [|x]; simpl; auto. rewrite IHl. reflexivity. Qed.
Lemma var_some {B} (l : list B) x : match nth_error l x with
  | Some b => var l x = Ok b /\ x < length l | None => var l x = Throw OutOfRange end.
Proof.
  unfold var, vec_at. destruct (nth_error l x) eqn:E; auto. split; auto. apply nth_error_Some. congruence.
Qed.
Lemma read_map {A B} (F : A -> B) l x : read (map F l) x = match nth_error l x with Some a => Ok (F a) | None => Throw OutOfRange end.
Proof. unfold read. rewrite nth_error_map. destruct (nth_error l x); reflexivity. Qed.

Section Steps.
  Variable mk : sptref -> sptref -> outcome (rpoint -> rpoint).
  Variable wkt : rpoint -> rpoint.

  Definition sames (r : state * option exn) (v : vstate * option exn) : Prop :=
    views (fst r) = fst v /\ snd r = snd v.

  Lemma views_ext h h' cs fs : well_formed (mkState h cs fs) -> ext h h' ->
    map (deref h') cs = map (deref h) cs /\ map (h_value h') fs = map (h_value h) fs.
  Proof.
    intros [W1 W2] E. cbn [st_heap st_cells st_field] in *. rewrite Forall_forall in W1, W2. split; apply map_ext_in.
    - intros a Ha. apply E. apply W1; exact Ha.
    - intros f Hf. apply h_value_ext; auto.
  Qed.

  Lemma show_field h h' cs fs f f1 v : well_formed (mkState h cs fs) -> ext h h' -> f < length fs -> v = h_value h' f1 ->
    views (mkState h' cs (assign fs f f1)) = mkV (map (deref h) cs) (replaced (map (h_value h) fs) f v).
  Proof.
    intros W E L ->. destruct (views_ext h h' cs fs W E) as [A B]. change (views (mkState h' cs (assign fs f f1))) with (mkV (map (deref h') cs) (map (h_value h') (assign fs f f1))).
    f_equal; [exact A|]. rewrite map_assign, B. apply assign_replaced. rewrite map_length; exact L.
  Qed.
  Lemma show_cells h h' cs fs x a c : well_formed (mkState h cs fs) -> ext h h' -> x < length cs -> c = deref h' a ->
    views (mkState h' (assign cs x a) fs) = mkV (replaced (map (deref h) cs) x c) (map (h_value h) fs).
  Proof.
    intros W E L ->. destruct (views_ext h h' cs fs W E) as [A B]. change (views (mkState h' (assign cs x a) fs)) with (mkV (map (deref h') (assign cs x a)) (map (h_value h') fs)).
    f_equal; [|exact B]. rewrite map_assign, A. apply assign_replaced. rewrite map_length; exact L.
  Qed.

  Lemma nth_ext_error {B} (l l' : list B) : (forall i, nth_error l i = nth_error l' i) -> l = l'.
  Proof.
    revert l'. induction l as [|a l IH]; intros [|b l'] H; auto; try (specialize (H 0); discriminate).
    pose proof (H 0) as H0. injection H0 as ->. f_equal. apply IH. intro i. apply (H (S i)).
  Qed.

  Lemma show_edit_cells h cs fs x a c : well_formed (mkState h cs fs) -> nth_error cs x = Some a ->
    unshared (mkState h cs fs) (InCells x) ->
    views (mkState (assign h a c) cs fs) = mkV (replaced (map (deref h) cs) x c) (map (h_value h) fs).
  Proof.
    intros [W1 W2] Hx U. cbn [st_heap st_cells st_field] in *. rewrite Forall_forall in W1, W2.
    assert (La : a < length h) by (apply W1; eapply nth_error_In; eauto).
    assert (Lx : x < length cs) by (apply nth_error_Some; congruence).
    change (views (mkState (assign h a c) cs fs)) with (mkV (map (deref (assign h a c)) cs) (map (h_value (assign h a c)) fs)).
    f_equal.
    -
      rewrite <- assign_replaced by (rewrite map_length; exact Lx).
      apply nth_ext_error. intro y. rewrite nth_error_map. destruct (Nat.eq_dec y x) as [->|N].
      + rewrite Hx, assign_same by (rewrite map_length; exact Lx). simpl. rewrite deref_assign, Nat.eqb_refl by exact La. reflexivity.
      + rewrite assign_other, nth_error_map by auto. destruct (nth_error cs y) as [b|] eqn:Ey; simpl; auto.
        rewrite deref_assign by exact La. destruct (b =? a) eqn:Eb; auto. apply Nat.eqb_eq in Eb. subst b.
        specialize (U a (InCells y) Hx Ey). congruence.
    - change (map (h_value (assign h a c)) fs = map (h_value h) fs). apply nth_ext_error. intro f. rewrite !nth_error_map.
      destruct (nth_error fs f) as [v|] eqn:Ef; simpl; auto. unfold h_value. rewrite deref_assign by exact La.
      destruct (h_cells v =? a) eqn:Eb; auto. apply Nat.eqb_eq in Eb.
      assert (Q : InField f = InCells x) by (apply (U a); [exact Hx|cbn; rewrite Ef; cbn; congruence]). discriminate.
  Qed.
  Lemma show_edit_field h cs fs f v c : well_formed (mkState h cs fs) -> nth_error fs f = Some v ->
    unshared (mkState h cs fs) (InField f) ->
    views (mkState (assign h (h_cells v) c) cs fs) =
    mkV (map (deref h) cs) (replaced (map (h_value h) fs) f (field_setField (h_value h v) c)).
  Proof.
    intros [W1 W2] Hf U. cbn [st_heap st_cells st_field] in *. rewrite Forall_forall in W1, W2.
    set (a := h_cells v).
    assert (La : a < length h) by (apply W2; eapply nth_error_In; eauto).
    assert (Lf : f < length fs) by (apply nth_error_Some; congruence).
    assert (Ha : holds (mkState h cs fs) (InField f) a) by (cbn; rewrite Hf; reflexivity).
    unfold views. cbn [st_heap st_cells st_field]. f_equal.
    - change (map (deref (assign h a c)) cs = map (deref h) cs). apply nth_ext_error. intro y. rewrite !nth_error_map.
      destruct (nth_error cs y) as [b|] eqn:Ey; simpl; auto. rewrite deref_assign by exact La.
      destruct (b =? a) eqn:Eb; auto. apply Nat.eqb_eq in Eb. subst b.
      specialize (U a (InCells y) Ha Ey). discriminate.
    - change (map (h_value (assign h a c)) fs = replaced (map (h_value h) fs) f (field_setField (h_value h v) c)).
      rewrite <- assign_replaced by (rewrite map_length; exact Lf).
      apply nth_ext_error. intro g. rewrite nth_error_map. destruct (Nat.eq_dec g f) as [->|N].
      + rewrite Hf, assign_same by (rewrite map_length; exact Lf). simpl. unfold h_value.
        fold a. rewrite deref_assign, Nat.eqb_refl by exact La. reflexivity.
      + rewrite assign_other, nth_error_map by auto. destruct (nth_error fs g) as [w|] eqn:Eg; simpl; auto.
        unfold h_value. rewrite deref_assign by exact La. destruct (h_cells w =? a) eqn:Eb; auto. apply Nat.eqb_eq in Eb.
        assert (Q : InField g = InField f) by (apply (U a); [exact Ha|cbn; rewrite Eg; cbn; congruence]). congruence.
  Qed.

  Lemma ended_same h cs fs f v s vs : well_formed (mkState h cs fs) -> nth_error fs f = Some v ->
    good h v s vs ->
    orel sames (ended h cs fs f s) (left_as (mkV (map (deref h) cs) (map (h_value h) fs)) f vs).
  Proof.
    intros W Hf G. assert (Lf : f < length fs) by (apply nth_error_Some; congruence).
    destruct s as [[h' f'] o]. destruct G as (E & L & _ & ->). unfold ended, left_as.
    destruct o; constructor; cbn [fst snd]; split; auto; cbn [fst]; apply show_field; auto.
  Qed.

  Lemma step_same st o : well_formed st -> (forall p, edited o = Some p -> unshared st p) ->
    orel sames (step mk wkt st o) (vstep mk wkt (views st) o).
  Proof.
    destruct st as [h cs fs]. intros W U.
    assert (WF : forall f v, nth_error fs f = Some v -> h_cells v < length h).
    { intros f v Hf. destruct W as [_ W2]. cbn in W2. rewrite Forall_forall in W2. apply W2. eapply nth_error_In; eauto. }
    unfold step, vstep. change (v_cells (views (mkState h cs fs))) with (map (deref h) cs).
    change (v_field (views (mkState h cs fs))) with (map (h_value h) fs).
    change (views (mkState h cs fs)) with (mkV (map (deref h) cs) (map (h_value h) fs)).
    cbn [st_heap st_cells st_field].
    destruct o; unfold set_cells, set_field; cbn [v_cells v_field]; rewrite ?read_map;
      repeat match goal with
      | |- context [var ?l ?x] =>
          let H := fresh "V" in pose proof (var_some l x) as H;
          let E := fresh "E" in destruct (nth_error l x) eqn:E;
          [destruct H as [-> H]|rewrite H]; cbn [bind]; rewrite ?read_map, ?E; cbn [bind]
      end; try (constructor; fail);
      try (constructor; split; [|reflexivity]; cbn [fst snd alloc];
           (apply show_field || apply show_cells); auto using ext_refl; fail).
    - (* NewCells *) cbn [alloc]. constructor; split; [|reflexivity]. cbn [fst]. apply show_cells; auto using ext_alloc.
      symmetry; apply deref_new.
    - (* EditCells *) constructor; split; [|reflexivity]. cbn [fst]. apply show_edit_cells; auto.
    - (* NewField *) cbn [alloc]. constructor; split; [|reflexivity]. cbn [fst]. apply show_field; auto using ext_alloc.
      unfold h_value. cbn [h_id h_crs h_prev h_ref h_cells]. rewrite deref_new. reflexivity.
    - (* MakeField *) pose proof (h_make_good wkt h (deref h n) id) as M.
      destruct (h_make wkt h (deref h n) id) as [[h' g]| | |]; try (rewrite M; constructor).
      destruct M as (Ex & _ & ->). cbn [bind fst snd]. constructor; split; [|reflexivity]. cbn [fst]. apply show_field; auto.
    - (* CloneField *)
      match goal with |- orel _ (bind (h_clone wkt h ?a) _) _ =>
        pose proof (h_clone_good wkt h a) as M; destruct (h_clone wkt h a) as [[h' w]| | |]; try (rewrite M; constructor) end.
      destruct M as (Ex & _ & ->). cbn [bind fst snd]. rewrite ?read_map, ?E0. cbn [bind].
      constructor; split; [|reflexivity]. cbn [fst]. apply show_field; auto.
    - (* EditField *) constructor; split; [|reflexivity]. cbn [fst]. apply show_edit_field; auto.
    - apply (ended_same h cs fs f h0); auto. apply h_transform_good. eauto.
    - apply (ended_same h cs fs f h0); auto. apply h_toUTM_good. eauto.
    - apply (ended_same h cs fs f h0); auto. apply h_toPrevCRS_good. eauto.
  Qed.
End Steps.
