(** Invariants of the heap of collections and parts.  *)
From Coq Require Import List Arith Bool Lia.
From Verif Require Import Outcome ListAux Graph_Proofs4 Container_Model Alias_Spec Parts_Model Parts_Spec.
Import ListNotations.
Local Open Scope nat_scope.

Ltac boks H := repeat (bok H).

Section Lists.
  Context {B : Type}.
  Lemma assign_length (l : list B) x b : length (assign l x b) = length l.
  Proof. revert x; induction l; intros [|x]; simpl; auto. Qed.
  Lemma assign_same (l : list B) x b : x < length l -> nth_error (assign l x b) x = Some b.
  Proof. revert x; induction l; intros [|x] H; simpl in *; try lia; auto. apply IHl; lia. Qed.
  Lemma assign_other (l : list B) x y b : x <> y -> nth_error (assign l x b) y = nth_error l y.
  Proof. revert x y; induction l; intros [|x] [|y] H; simpl; auto; try congruence. Qed.
  Lemma assign_case (l : list B) x y b c : nth_error (assign l x b) y = Some c ->
    (y = x /\ c = b /\ x < length l) \/ (y <> x /\ nth_error l y = Some c).
  Proof.
    intro H. destruct (Nat.eq_dec y x) as [->|E].
    - left. assert (x < length l).
      { rewrite <- (assign_length l x b). apply nth_error_Some. congruence. }
      rewrite assign_same in H by auto. inversion H; auto.
    - right. rewrite assign_other in H by auto. auto.
  Qed.
  Lemma assign_In (l : list B) x b c : In c (assign l x b) -> c = b \/ In c l.
  Proof. revert x; induction l; intros [|x] H; simpl in *; intuition. destruct (IHl _ H0); auto. Qed.
  Lemma assign_replaced (l : list B) x b : x < length l -> assign l x b = replaced l x b.
  Proof.
    unfold replaced. revert x; induction l; intros [|x] H; simpl in *; try lia; auto.
    f_equal. apply IHl. lia.
  Qed.
  Lemma nth_nth_error (l : list B) x d b : nth_error l x = Some b -> nth x l d = b.
  Proof. intro H. apply nth_error_nth. auto. Qed.
  Lemma var_ok (l : list B) x b : var l x = Ok b <-> nth_error l x = Some b.
  Proof. unfold var, vec_at. destruct (nth_error l x); split; intro H; inversion H; auto. Qed.
  Lemma var_lt (l : list B) x b : var l x = Ok b -> x < length l.
  Proof. rewrite var_ok. intro H. apply nth_error_Some. congruence. Qed.
End Lists.

Lemma combine_fst {B} (l : list B) s : map fst (combine (seq s (length l)) l) = seq s (length l).
Proof. revert s; induction l; intro s; simpl; auto. f_equal; auto. Qed.
Lemma combine_snd {B} (l : list B) s : map snd (combine (seq s (length l)) l) = l.
Proof. revert s; induction l; intro s; simpl; auto. f_equal; auto. Qed.
Lemma combine_nth {B} (l : list B) s i c v : nth_error (combine (seq s (length l)) l) i = Some (c, v) ->
  c = s + i /\ nth_error l i = Some v.
Proof.
  revert s i; induction l; intros s [|i] H; simpl in *; try discriminate.
  - inversion H. split; auto; lia.
  - apply IHl in H as [-> H]. split; auto; lia.
Qed.
Lemma combine_len {B} (l : list B) s : length (combine (seq s (length l)) l) = length l.
Proof. rewrite combine_length, seq_length. lia. Qed.

Lemma nth_firstn {B} (l : list B) : forall n i b, nth_error (firstn n l) i = Some b -> nth_error l i = Some b.
Proof. induction l; intros [|n] [|i] b H; simpl in *; try discriminate; auto. eapply IHl; eauto. Qed.

Section Inv.
  Context {A : Type}.
  Variable isEmpty : A -> bool.
  Variable dflt : A.
  Variable put : A -> A.
  Variable wkt : A -> A.
  Notation step := (@step A isEmpty dflt put wkt).
  Notation run := (@run A isEmpty dflt put wkt).
  Notation state := (@state A).

  (** Addresses are those of collections and of parts, and different parts have different
      addresses. *)
  Record sound (st : state) : Prop := {
    s_coll : forall x a, nth_error (st_coll st) x = Some a -> a < length (st_heap st);
    s_own : forall p b, nth_error (st_part st) p = Some (Own b) -> b < length (st_solo st);
    s_bor : forall p c, nth_error (st_part st) p = Some (Borrow c) -> c < st_fresh st;
    s_fresh : forall a i c v, nth_error (parts_of st a) i = Some (c, v) -> c < st_fresh st;
    s_uniq : forall a i a' i' c v v', nth_error (parts_of st a) i = Some (c, v) ->
      nth_error (parts_of st a') i' = Some (c, v') -> a = a' /\ i = i'
  }.

  Lemma sound_init nc np : sound (st_init dflt nc np).
  Proof.
    assert (E : forall a i c v, nth_error (parts_of (st_init dflt nc np) a) i = Some (c, v) -> False).
    { intros a i c v. unfold parts_of, st_init; simpl.
      assert (H : nth a (repeat (@nil (nat * A)) nc) [] = []).
      { destruct (nth_in_or_default a (repeat (@nil (nat * A)) nc) []) as [H | H]; auto.
        apply repeat_spec in H. auto. }
      rewrite H. destruct i; discriminate. }
    constructor; simpl.
    - intros x a H. rewrite repeat_length. apply nth_error_In in H. apply in_seq in H. lia.
    - intros p b H. apply nth_error_In in H. apply in_map_iff in H as (k & E1 & H).
      inversion E1; subst. rewrite repeat_length. apply in_seq in H. lia.
    - intros p c H. apply nth_error_In in H. apply in_map_iff in H as (k & E1 & H). discriminate.
    - intros a i c v H. destruct (E _ _ _ _ H).
    - intros a i a' i' c v v' H. destruct (E _ _ _ _ H).
  Qed.

  (** Looking up a collection in a heap. *)
  Definition kids_at (h : list (list (nat * A))) a := nth a h [].
  Lemma kids_lt h a i k : nth_error (kids_at h a) i = Some k -> a < length h.
  Proof.
    unfold kids_at. intro H. destruct (lt_dec a (length h)); auto.
    rewrite nth_overflow in H by lia. destruct i; discriminate.
  Qed.
  Lemma kids_snoc h l a : kids_at (h ++ [l]) a = if a =? length h then l else kids_at h a.
  Proof.
    unfold kids_at. destruct (Nat.eqb_spec a (length h)) as [->|E].
    - rewrite app_nth2, Nat.sub_diag by lia. reflexivity.
    - destruct (lt_dec a (length h)).
      + rewrite app_nth1 by auto. reflexivity.
      + rewrite !nth_overflow; auto; try lia. rewrite app_length; simpl; lia.
  Qed.
  Lemma kids_assign h b l a : b < length h -> kids_at (assign h b l) a = if a =? b then l else kids_at h a.
  Proof.
    intro Hb. unfold kids_at. destruct (Nat.eqb_spec a b) as [->|E].
    - apply nth_nth_error. apply assign_same; auto.
    - destruct (nth_error h a) eqn:Ha.
      + rewrite (nth_nth_error _ _ _ _ Ha). apply nth_nth_error. rewrite assign_other; auto.
      + apply nth_error_None in Ha. rewrite !nth_overflow; auto. rewrite assign_length; auto.
  Qed.
  Lemma kids_write h c v a : kids_at (map (write_kid c v) h) a = write_kid c v (kids_at h a).
  Proof. unfold kids_at. change (@nil (nat * A)) with (write_kid c v []) at 1. apply map_nth. Qed.

  Lemma write_nth c (v : A) l i d w : nth_error (write_kid c v l) i = Some (d, w) <->
    exists w', nth_error l i = Some (d, w') /\ w = (if d =? c then v else w').
  Proof.
    unfold write_kid. split.
    - rewrite nth_error_map. destruct (nth_error l i) as [[e u]|]; simpl; try discriminate.
      destruct (Nat.eqb_spec e c); intro H; inversion H; subst; eexists; split; eauto.
      + rewrite Nat.eqb_refl; auto.
      + destruct (Nat.eqb_spec d c); congruence.
    - intros (w' & H & ->). rewrite nth_error_map, H. simpl.
      destruct (Nat.eqb_spec d c); subst; auto.
  Qed.

  (** The three ways a heap changes. *)
  Lemma uniq_snoc h f (l : list A) :
    (forall a i c v, nth_error (kids_at h a) i = Some (c, v) -> c < f) ->
    (forall a i a' i' c v v', nth_error (kids_at h a) i = Some (c, v) ->
      nth_error (kids_at h a') i' = Some (c, v') -> a = a' /\ i = i') ->
    let h' := h ++ [combine (seq f (length l)) l] in
    (forall a i c v, nth_error (kids_at h' a) i = Some (c, v) -> c < f + length l) /\
    (forall a i a' i' c v v', nth_error (kids_at h' a) i = Some (c, v) ->
      nth_error (kids_at h' a') i' = Some (c, v') -> a = a' /\ i = i').
  Proof.
    intros F U h'. unfold h'. split.
    - intros a i c v. rewrite kids_snoc. destruct (a =? length h).
      + intro H. apply combine_nth in H as [-> H].
        assert (i < length l) by (apply nth_error_Some; congruence). lia.
      + intro H. apply F in H. lia.
    - intros a i a' i' c v v'. rewrite !kids_snoc.
      destruct (Nat.eqb_spec a (length h)), (Nat.eqb_spec a' (length h)); intros H H'.
      + apply combine_nth in H as [-> H]. apply combine_nth in H' as [E H']. split; lia.
      + apply combine_nth in H as [-> H]. apply F in H'. lia.
      + apply combine_nth in H' as [-> H']. apply F in H. lia.
      + eapply U; eauto.
  Qed.

  Lemma nth_app_case {B} (l m : list B) i b : nth_error (l ++ m) i = Some b ->
    (i < length l /\ nth_error l i = Some b) \/ (length l <= i /\ nth_error m (i - length l) = Some b).
  Proof.
    intro H. destruct (lt_dec i (length l)).
    - left. rewrite nth_error_app1 in H; auto.
    - right. rewrite nth_error_app2 in H by lia. split; auto; lia.
  Qed.

  Lemma uniq_grow h f b (l : list A) :
    b < length h ->
    (forall a i c v, nth_error (kids_at h a) i = Some (c, v) -> c < f) ->
    (forall a i a' i' c v v', nth_error (kids_at h a) i = Some (c, v) ->
      nth_error (kids_at h a') i' = Some (c, v') -> a = a' /\ i = i') ->
    forall base, (base = kids_at h b \/ base = []) ->
    let h' := assign h b (base ++ combine (seq f (length l)) l) in
    (forall a i c v, nth_error (kids_at h' a) i = Some (c, v) -> c < f + length l) /\
    (forall a i a' i' c v v', nth_error (kids_at h' a) i = Some (c, v) ->
      nth_error (kids_at h' a') i' = Some (c, v') -> a = a' /\ i = i').
  Proof.
    intros Hb F U base Hbase h'. unfold h'.
    assert (N : forall i c (v : A), nth_error (base ++ combine (seq f (length l)) l) i = Some (c, v) ->
      (i < length base /\ nth_error (kids_at h b) i = Some (c, v)) \/
      (c = f + (i - length base) /\ length base <= i /\ i - length base < length l)).
    { intros i c v H. apply nth_app_case in H as [[L H]|[L H]].
      - left. destruct Hbase as [-> | ->]; auto. simpl in L; lia.
      - right. apply combine_nth in H as [-> H]. repeat split; auto.
        apply nth_error_Some; congruence. }
    split.
    - intros a i c v. rewrite kids_assign by auto. destruct (a =? b).
      + intro H. apply N in H as [[_ H]|(-> & _ & H)]; [apply F in H; lia | lia].
      + intro H. apply F in H. lia.
    - intros a i a' i' c v v'. rewrite !kids_assign by auto.
      destruct (Nat.eqb_spec a b) as [->|E], (Nat.eqb_spec a' b) as [->|E']; intros H H'.
      + split; auto. apply N in H as [[L H]|(E & L & H)]; apply N in H' as [[L' H']|(E' & L' & H')].
        * destruct (U _ _ _ _ _ _ _ H H'). auto.
        * apply F in H. lia.
        * apply F in H'. lia.
        * lia.
      + apply N in H as [[L H]|(E & L & H)].
        * destruct (U _ _ _ _ _ _ _ H H'). congruence.
        * apply F in H'. lia.
      + apply N in H' as [[L H']|(E' & L & H')].
        * destruct (U _ _ _ _ _ _ _ H H'). congruence.
        * apply F in H. lia.
      + eapply U; eauto.
  Qed.

  Lemma uniq_write h f c0 v0 :
    (forall a i c v, nth_error (kids_at h a) i = Some (c, v) -> c < f) ->
    (forall a i a' i' c v v', nth_error (kids_at h a) i = Some (c, v) ->
      nth_error (kids_at h a') i' = Some (c, v') -> a = a' /\ i = i') ->
    let h' := map (write_kid c0 v0) h in
    (forall a i c v, nth_error (kids_at h' a) i = Some (c, v) -> c < f) /\
    (forall a i a' i' c v v', nth_error (kids_at h' a) i = Some (c, v) ->
      nth_error (kids_at h' a') i' = Some (c, v') -> a = a' /\ i = i').
  Proof.
    intros F U h'. unfold h'. split.
    - intros a i c v. rewrite kids_write, write_nth. intros (w & H & _). eapply F; eauto.
    - intros a i a' i' c v v'. rewrite !kids_write, !write_nth.
      intros (w & H & _) (w' & H' & _). eapply U; eauto.
  Qed.

  Lemma sound_new_coll st x l : sound st -> sound (new_coll st x l).
  Proof.
    intros [C O Bo F U].
    destruct (uniq_snoc (st_heap st) (st_fresh st) l F U) as [F' U'].
    constructor; simpl; auto.
    - intros y a H. rewrite app_length; simpl. apply assign_case in H as [(-> & -> & _)|(_ & H)]; [lia|].
      apply C in H. lia.
    - intros p c H. apply Bo in H. lia.
  Qed.
  Lemma sound_new_part st p v : sound st -> sound (new_part st p v).
  Proof.
    intros [C O Bo F U]. constructor; simpl; auto.
    - intros q b H. rewrite app_length; simpl. apply assign_case in H as [(_ & E & _)|(_ & H)].
      + inversion E. lia.
      + apply O in H. lia.
    - intros q c H. apply assign_case in H as [(_ & E & _)|(_ & H)]; [discriminate|]. eapply Bo; eauto.
  Qed.
  Lemma sound_grow st a l : sound st -> a < length (st_heap st) -> sound (grow st a l).
  Proof.
    intros [C O Bo F U] Ha.
    destruct (uniq_grow (st_heap st) (st_fresh st) a l Ha F U (kids_at (st_heap st) a) (or_introl eq_refl)) as [F' U'].
    constructor; simpl; auto.
    - intros y b H. rewrite assign_length. eauto.
    - intros p c H. apply Bo in H. lia.
  Qed.
  Lemma sound_set_part st p r : sound st ->
    match r with Own b => b < length (st_solo st) | Borrow c => c < st_fresh st end ->
    sound (mkState (st_heap st) (st_solo st) (st_fresh st) (st_coll st) (assign (st_part st) p r)).
  Proof.
    intros [C O Bo F U] Hr. constructor; simpl; auto.
    - intros q b H. apply assign_case in H as [(_ & E & _)|(_ & H)]; [subst r; auto | eauto].
    - intros q c H. apply assign_case in H as [(_ & E & _)|(_ & H)]; [subst r; auto | eauto].
  Qed.

  Lemma sound_step st o st' : sound st -> step st o = Ok st' -> sound st'.
  Proof.
    intros S0 H. pose proof S0 as [C O Bo F U]. destruct o; simpl in H.
    - boks H. inversion H; subst. apply sound_new_coll; auto.
    - boks H. inversion H; subst. constructor; simpl; auto.
      intros z b Hz. apply assign_case in Hz as [(_ & -> & _)|(_ & Hz)]; [|eauto].
      match goal with E : var _ x = Ok _ |- _ => apply var_ok in E; eauto end.
    - boks H. inversion H; subst. apply sound_new_coll; auto.
    - boks H. inversion H; subst.
      match goal with E : var _ x = Ok _ |- _ => apply var_ok in E; apply C in E end.
      match goal with E : ?a < _ |- _ =>
        destruct (uniq_grow (st_heap st) (st_fresh st) a l E F U [] (or_intror eq_refl)) as [F' U'] end.
      constructor; simpl; auto.
      + intros y b Hy. rewrite assign_length. eauto.
      + intros p c Hc. apply Bo in Hc. lia.
    - boks H. inversion H; subst. apply sound_grow; auto.
      match goal with E : var _ x = Ok _ |- _ => apply var_ok in E; apply C in E; auto end.
    - boks H. destruct (_ <? _).
      + boks H. inversion H; subst. apply sound_new_coll; auto.
      + boks H. inversion H; subst. apply sound_grow; auto.
        match goal with E : var _ x = Ok _ |- _ => apply var_ok in E; apply C in E; auto end.
    - boks H. inversion H; subst. apply sound_new_part; auto.
    - boks H. inversion H; subst. apply sound_set_part; auto.
      match goal with E : borrow _ _ _ _ = Ok _ |- _ => unfold borrow in E; destruct (_ <=? _); try discriminate; boks E;
        inversion E; subst end.
      match goal with E : vec_index _ _ = Ok ?k |- _ => unfold vec_index in E;
        destruct (nth_error _ _) as [[c v]|] eqn:N; inversion E; subst; simpl; eapply F; exact N end.
    - boks H. destruct (find _ _) as [[c v]|] eqn:N.
      + inversion H; subst. apply sound_set_part; auto. simpl.
        apply find_some in N as [N _]. apply In_nth_error in N as [i N].
        assert (N' : nth_error (parts_of st r) i = Some (c, v)).
        { eapply nth_firstn; exact N. }
        eapply F; exact N'.
      + inversion H; subst. apply sound_new_part; auto.
    - boks H. inversion H; subst. apply sound_new_part; auto.
    - boks H. inversion H; subst. apply sound_set_part; auto.
      match goal with E : var _ p = Ok ?r |- _ => apply var_ok in E; destruct r; eauto end.
    - boks H. inversion H; subst. apply sound_new_part; auto.
    - boks H. unfold write_ref in H. boks H. inversion H; subst. destruct r as [b|c].
      + constructor; simpl; auto. intros q b' Hq. rewrite assign_length. eauto.
      + destruct (uniq_write (st_heap st) (st_fresh st) c (f r0) F U) as [F' U'].
        constructor; simpl; auto. intros y d Hy. rewrite map_length. eauto.
  Qed.

  Lemma sound_run ops : forall st st', sound st -> run ops st = Ok st' -> sound st'.
  Proof.
    unfold Parts_Model.run. induction ops; intros st st' S0 H; cbn [foldM] in H.
    - inversion H; subst; auto.
    - bok H. eapply IHops; [|eassumption]. eapply sound_step; eauto.
  Qed.
End Inv.
