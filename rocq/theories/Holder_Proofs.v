(** Proofs about fields that share their cells: the functions on one field. *)
From Coq Require Import Ascii String List Arith Bool Reals Lia.
From Verif Require Import Outcome Num Point_Model Angle_Model Container_Model Text_Model Field_Model Transform_Model
  Alias_Spec Parts_Model Parts_Spec Parts_Proofs Holder_Model Holder_Spec.
Import ListNotations.
Local Open Scope nat_scope.
Notation rcells := (cells RNum).

(** The old objects are as they were. *)
Definition ext (h h' : list rcells) : Prop := length h <= length h' /\ forall a, a < length h -> deref h' a = deref h a.

Lemma ext_refl h : ext h h.
Proof. split; auto. Qed.
Lemma ext_trans h h1 h2 : ext h h1 -> ext h1 h2 -> ext h h2.
Proof. intros [A B] [C D]. split; [lia|]. intros a Ha. rewrite D by lia. apply B; lia. Qed.
Lemma ext_alloc h c : ext h (h ++ [c]).
Proof. split; [rewrite app_length; simpl; lia|]. intros a Ha. unfold deref. apply app_nth1; auto. Qed.
Lemma deref_new h c : deref (h ++ [c]) (length h) = c.
Proof. unfold deref. rewrite app_nth2, Nat.sub_diag by lia. reflexivity. Qed.
Lemma assign_nth {B} (l : list B) x b d y : nth y (assign l x b) d = if (y =? x) && (x <? length l) then b else nth y l d.
Proof.
  revert x y. induction l as [|c l IH]; intros [|x] [|y]; simpl; auto.
  - rewrite andb_false_r. reflexivity.
  - rewrite IH. reflexivity.
Qed.
Lemma deref_assign h a c b : a < length h -> deref (assign h a c) b = if b =? a then c else deref h b.
Proof.
  intro H. unfold deref. rewrite assign_nth. apply Nat.ltb_lt in H. rewrite H, andb_true_r. reflexivity.
Qed.
Lemma ext_assign_new h h1 a c : ext h h1 -> length h <= a -> ext h (assign h1 a c).
Proof.
  intros [A B] H. split; [rewrite assign_length; lia|]. intros b Hb. unfold deref. rewrite assign_nth.
  destruct (b =? a) eqn:E; [apply Nat.eqb_eq in E; lia|]. apply B; auto.
Qed.
Lemma h_value_ext h h' f : ext h h' -> h_cells f < length h -> h_value h' f = h_value h f.
Proof. intros [_ B] H. unfold h_value. rewrite B by auto. reflexivity. Qed.

Section Fns.
  Variable mk : sptref -> sptref -> outcome (rpoint -> rpoint).
  Variable wkt : rpoint -> rpoint.

  (** What a function on a field has to do: as the one on values, without touching the
      old objects; the field points to its old object or to a new one. *)
  Definition good (h : list rcells) (f : hfield) (s : on_h) (v : on_field) : Prop :=
    let '(h', f', o) := s in
    ext h h' /\ h_cells f' < length h' /\ (h_cells f' = h_cells f \/ length h <= h_cells f') /\
    v = (h_value h' f', o).

  Lemma good_self h f o : h_cells f < length h -> good h f (h, f, o) (h_value h f, o).
  Proof. intro H. split; [apply ext_refl|]. auto. Qed.

  Lemma good_later h f h1 f1 s v : ext h h1 -> (h_cells f1 = h_cells f \/ length h <= h_cells f1) ->
    good h1 f1 s v -> good h f s v.
  Proof.
    destruct s as [[h2 f2] o]. intros E C (E1 & L & C1 & V). split; [eapply ext_trans; eauto|]. split; [exact L|].
    split; [|exact V]. destruct E as [E _]. destruct C1 as [->|]; [exact C|right; lia].
  Qed.

  Lemma good_then h f s v k vk :
    good h f s v ->
    (forall h' f', ext h h' -> h_cells f' < length h' -> good h' f' (k h' f') (vk (h_value h' f'))) ->
    good h f (h_then s k) (andThen v vk).
  Proof.
    destruct s as [[h1 f1] o]. intros G K. destruct G as (E & L & C & ->).
    unfold h_then, andThen. cbn [fst snd]. destruct o; try (split; [exact E|]; split; [exact L|]; split; [exact C|reflexivity]).
    apply (good_later h f h1 f1); auto.
  Qed.

  Lemma good_eval {A} h0 f0 h f (o : outcome A) k vk :
    ext h0 h -> h_cells f < length h -> (h_cells f = h_cells f0 \/ length h0 <= h_cells f) ->
    (forall a, o = Ok a -> good h0 f0 (k a) (vk a)) ->
    good h0 f0 (h_eval h f o k) (eval (h_value h f) o vk).
  Proof.
    intros E L C K. destruct o; cbn [h_eval eval]; try (split; [exact E|]; split; [exact L|]; split; [exact C|reflexivity]).
    apply K; reflexivity.
  Qed.

  Lemma good_set h f f1 o v : h_cells f1 = h_cells f -> h_cells f < length h -> v = h_value h f1 -> good h f (h, f1, o) (v, o).
  Proof. intros E L ->. split; [apply ext_refl|]. split; [congruence|]. auto. Qed.

  Lemma h_transform_good h f to : h_cells f < length h ->
    good h f (h_transform mk wkt h f to) (transform_field mk wkt (h_value h f) to).
  Proof.
    intro L. unfold h_transform, transform_field, field_isEmpty. cbn [h_value f_cells].
    destruct (cells_isEmpty RNum (deref h (h_cells f))) eqn:Em; cbn [negb].
    - apply (good_eval h f h f); [apply ext_refl|exact L|auto|]. intros ref _. apply good_set; auto.
    - cbn [alloc].
      set (c1 := cells_add RNum wkt (deref h (h_cells f)) (h_ref f)).
      set (h1 := h ++ [c1]).
      assert (L1 : length h1 = S (length h)) by (unfold h1; rewrite app_length; simpl; lia).
      assert (E1 : ext h h1) by apply ext_alloc.
      assert (D1 : deref h1 (length h) = c1) by apply deref_new.
      set (f1 := h_setField f (length h)).
      assert (V1 : field_setField (h_value h f) c1 = h_value h1 f1).
      { unfold field_setField, h_value, f1, h_setField. cbn [f_id f_crs f_prev f_ref h_id h_crs h_prev h_ref h_cells].
        rewrite D1. reflexivity. }
      change (f_ref (h_value h f)) with (h_ref f). fold c1.
      rewrite V1. change (f_crs (h_value h1 f1)) with (h_crs f1).
      apply good_eval; [exact E1|cbn; lia|right; cbn; lia|]. intros ct _.
      change (h_cells f1) with (length h).
      set (h2 := assign h1 (length h) (map (map (map ct)) (deref h1 (length h)))).
      assert (L2 : length h2 = S (length h)) by (unfold h2; rewrite assign_length; exact L1).
      assert (E2 : ext h h2) by (apply ext_assign_new; auto).
      assert (D2 : deref h2 (length h) = map (map (map ct)) c1).
      { unfold h2. rewrite deref_assign by lia. rewrite Nat.eqb_refl, D1. reflexivity. }
      assert (V2 : field_setField (h_value h1 f1) (map (map (map ct)) (f_cells (h_value h1 f1))) = h_value h2 f1).
      { unfold field_setField, h_value, f1, h_setField. cbn [f_id f_crs f_prev f_ref f_cells h_id h_crs h_prev h_ref h_cells].
        rewrite D1, D2. reflexivity. }
      rewrite V2. change (f_cells (h_value h2 f1)) with (deref h2 (length h)).
      apply good_eval; [exact E2|cbn; lia|right; cbn; lia|]. intros ref _.
      cbn [h_setRefPoint h_cells h_ref].
      split; [eapply ext_trans; [exact E2|apply ext_alloc]|].
      split; [cbn; rewrite app_length; simpl; lia|]. split; [right; cbn; lia|].
      unfold h_value. cbn [h_setCRS h_setPrevCRS h_setField h_id h_crs h_prev h_ref h_cells].
      rewrite deref_new. reflexivity.
  Qed.

  Lemma h_make_good h c id : match h_make wkt h c id with
    | Ok (h', f) => ext h h' /\ length h <= h_cells f < length h' /\ field_make RNum wkt c id = Ok (h_value h' f)
    | Throw e => field_make RNum wkt c id = Throw e
    | UB => field_make RNum wkt c id = UB
    | Hang => field_make RNum wkt c id = Hang
    end.
  Proof.
    unfold h_make, field_make.
    destruct (if negb (cells_isEmpty RNum c) then _ else _) as [ref| | |]; cbn [bind alloc]; auto.
    split; [apply ext_alloc|]. split; [cbn; rewrite app_length; simpl; lia|].
    unfold h_value. cbn [h_id h_crs h_prev h_ref h_cells]. rewrite deref_new. reflexivity.
  Qed.

  Lemma h_clone_good h f : match h_clone wkt h f with
    | Ok (h', g) => ext h h' /\ length h <= h_cells g < length h' /\ field_clone RNum wkt (h_value h f) = Ok (h_value h' g)
    | Throw e => field_clone RNum wkt (h_value h f) = Throw e
    | UB => field_clone RNum wkt (h_value h f) = UB
    | Hang => field_clone RNum wkt (h_value h f) = Hang
    end.
  Proof.
    unfold h_clone, field_clone. cbn [alloc]. rewrite deref_new.
    change (f_cells (h_value h f)) with (deref h (h_cells f)).
    change (f_ref (h_value h f)) with (h_ref f). change (f_id (h_value h f)) with (h_id f).
    set (c := cells_add RNum wkt (deref h (h_cells f)) (h_ref f)).
    pose proof (h_make_good (h ++ [c]) c (h_id f)) as M.
    destruct (h_make wkt (h ++ [c]) c (h_id f)) as [[h' g]| | |]; cbn [bind fst snd]; try (rewrite M; reflexivity).
    destruct M as (E & [L1 L2] & ->). cbn [bind].
    rewrite app_length in L1. simpl in L1.
    split; [eapply ext_trans; [apply ext_alloc|exact E]|]. split; [cbn; lia|]. reflexivity.
  Qed.

  Lemma h_toPrevCRS_good h f : h_cells f < length h ->
    good h f (h_toPrevCRS mk wkt h f) (transformToPrevCRS mk wkt (h_value h f)).
  Proof.
    intro L. unfold h_toPrevCRS, transformToPrevCRS. change (f_prev (h_value h f)) with (h_prev f).
    destruct (h_prev f) eqn:E; [apply good_self; exact L|]. rewrite <- E. apply h_transform_good; exact L.
  Qed.

  Lemma h_toUTM_good h f b : h_cells f < length h ->
    good h f (h_toUTM mk wkt h f b) (transformToUTM mk wkt (h_value h f) b).
  Proof.
    intro L. unfold h_toUTM, transformToUTM. change (f_crs (h_value h f)) with (h_crs f).
    change (f_ref (h_value h f)) with (h_ref f).
    assert (Last : forall h f field_crs, h_cells f < length h ->
      good h f (h_eval h f (utm_name (h_ref f) (h_crs f)) (fun utm_zone =>
        h_then (h_transform mk wkt h f utm_zone) (fun h f => (h, h_setPrevCRS f field_crs, Ok tt))))
        (eval (h_value h f) (utm_name (f_ref (h_value h f)) (f_crs (h_value h f))) (fun utm_zone =>
          andThen (transform_field mk wkt (h_value h f) utm_zone) (fun f => (field_setPrevCRS f field_crs, Ok tt))))).
    { clear. intros h f fc L. apply good_eval; [apply ext_refl|exact L|auto|]. intros z _.
      apply good_then; [apply h_transform_good; exact L|]. intros h' f' _ L'.
      apply good_set; auto. }
    destruct (negb (match h_crs f with [] => true | _ => false end) && negb (is_text (h_crs f) (txt "EPSG:4258")) && negb (is_text (h_crs f) (txt "EPSG:4326"))).
    - apply good_then; [apply h_transform_good; exact L|]. intros h1 f1 _ L1.
      apply good_then.
      + change (f_ref (h_value h1 f1)) with (h_ref f1). destruct (b && in_europe (h_ref f1)).
        * apply h_transform_good; exact L1.
        * apply good_self; exact L1.
      + intros h2 f2 _ L2. apply Last; exact L2.
    - destruct (match h_crs f with [] => true | _ => false end); [|apply Last; exact L].
      apply good_then.
      + destruct (p_eq RNum (h_ref f) (p_default RNum)); [|apply good_self; exact L].
        pose proof (h_clone_good h f) as C. destruct (h_clone wkt h f) as [[h' g]| | |]; cbn [h_eval].
        * destruct C as (E & [La Lb] & ->). cbn [eval fst snd]. split; [exact E|]. auto.
        * rewrite C. apply good_self; exact L.
        * rewrite C. apply good_self; exact L.
        * rewrite C. apply good_self; exact L.
      + intros h1 f1 _ L1. change (f_ref (h_value h1 f1)) with (h_ref f1).
        destruct (p_eq RNum (h_ref f1) (p_default RNum)); [apply good_self; exact L1|].
        destruct (b && in_europe (h_ref f1)).
        { apply (good_later h1 f1 h1 (h_setCRS f1 (txt "EPSG:4258"))); [apply ext_refl|auto|].
          apply (Last h1 (h_setCRS f1 (txt "EPSG:4258"))); exact L1. }
        destruct (in_world (h_ref f1)).
        { apply (good_later h1 f1 h1 (h_setCRS f1 (txt "EPSG:4326"))); [apply ext_refl|auto|].
          apply (Last h1 (h_setCRS f1 (txt "EPSG:4326"))); exact L1. }
        apply good_self; exact L1.
  Qed.
End Fns.
