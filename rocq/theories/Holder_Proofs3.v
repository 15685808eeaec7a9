(** Proofs about fields that share their cells: who points to what. *)
From Coq Require Import Ascii String List Arith Bool Reals Lia.
From Verif Require Import Outcome Num Point_Model Angle_Model Container_Model Text_Model Field_Model Transform_Model
  Alias_Spec Parts_Model Parts_Spec Parts_Proofs Holder_Model Holder_Spec Holder_Proofs Holder_Proofs2.
Import ListNotations.
Local Open Scope nat_scope.

Section Effect.
  Variable mk : sptref -> sptref -> outcome (rpoint -> rpoint).
  Variable wkt : rpoint -> rpoint.

  (** What a statement may do. *)
  Record effect (o : op) (st st' : state) : Prop := mkEff {
    e_len : length (st_heap st) <= length (st_heap st');
    e_heap : forall a, a < length (st_heap st) -> (forall q, names o q -> ~ holds st q a) ->
             deref (st_heap st') a = deref (st_heap st) a;
    e_cells : forall y, ~ names o (InCells y) -> nth_error (st_cells st') y = nth_error (st_cells st) y;
    e_field : forall g, ~ names o (InField g) -> nth_error (st_field st') g = nth_error (st_field st) g;
    e_new : forall p b, holds st' p b -> names o p ->
            b < length (st_heap st') /\ ((exists q, names o q /\ holds st q b) \/ length (st_heap st) <= b)
  }.

  Lemma effect_field o h cs fs h' f f1 :
    ext h h' -> f < length fs -> names o (InField f) ->
    well_formed (mkState h cs fs) ->
    h_cells f1 < length h' ->
    ((exists q, names o q /\ holds (mkState h cs fs) q (h_cells f1)) \/ length h <= h_cells f1) ->
    effect o (mkState h cs fs) (mkState h' cs (assign fs f f1)).
  Proof.
    intros [E1 E2] L N [W1 W2] L1 H. cbn [st_heap st_cells st_field] in *. rewrite Forall_forall in W1, W2.
    constructor; cbn [st_heap st_cells st_field]; auto.
    - intros g Ng. apply assign_other. intros ->. auto.
    - intros [x|g] b Hb Nb; cbn in Hb.
      + split; [eapply Nat.lt_le_trans; [apply W1; eapply nth_error_In; eauto|lia]|]. left. exists (InCells x). auto.
      + destruct (Nat.eq_dec f g) as [->|D].
        * rewrite assign_same in Hb by exact L. cbn in Hb. injection Hb as <-. auto.
        * rewrite assign_other in Hb by exact D. split; [|left; exists (InField g); auto].
          destruct (nth_error fs g) as [v|] eqn:Eg; [|discriminate]. injection Hb as <-.
          eapply Nat.lt_le_trans; [apply W2; eapply nth_error_In; eauto|lia].
  Qed.
  Lemma effect_cells o h cs fs h' x a :
    ext h h' -> x < length cs -> names o (InCells x) ->
    well_formed (mkState h cs fs) ->
    a < length h' ->
    ((exists q, names o q /\ holds (mkState h cs fs) q a) \/ length h <= a) ->
    effect o (mkState h cs fs) (mkState h' (assign cs x a) fs).
  Proof.
    intros [E1 E2] L N [W1 W2] L1 H. cbn [st_heap st_cells st_field] in *. rewrite Forall_forall in W1, W2.
    constructor; cbn [st_heap st_cells st_field]; auto.
    - intros g Ng. apply assign_other. intros ->. auto.
    - intros [y|g] b Hb Nb; cbn in Hb.
      + destruct (Nat.eq_dec x y) as [->|D].
        * rewrite assign_same in Hb by exact L. injection Hb as <-. auto.
        * rewrite assign_other in Hb by exact D. split; [|left; exists (InCells y); auto].
          eapply Nat.lt_le_trans; [apply W1; eapply nth_error_In; eauto|lia].
      + split; [|left; exists (InField g); auto].
        destruct (nth_error fs g) as [v|] eqn:Eg; [|discriminate]. injection Hb as <-.
        eapply Nat.lt_le_trans; [apply W2; eapply nth_error_In; eauto|lia].
  Qed.
  Lemma effect_edit o h cs fs p a c : names o p -> holds (mkState h cs fs) p a -> well_formed (mkState h cs fs) ->
    effect o (mkState h cs fs) (mkState (assign h a c) cs fs).
  Proof.
    intros N H [W1 W2]. cbn [st_heap st_cells st_field] in *. rewrite Forall_forall in W1, W2.
    constructor; cbn [st_heap st_cells st_field]; rewrite ?assign_length; auto.
    - intros b Hb D. destruct (Nat.eq_dec b a) as [->|D']; [destruct (D p N H)|].
      unfold deref. rewrite assign_nth. apply Nat.eqb_neq in D'. rewrite D'. reflexivity.
    - intros [y|g] b Hb Nb; cbn in Hb.
      + split; [apply W1; eapply nth_error_In; eauto|left; exists (InCells y); auto].
      + split; [|left; exists (InField g); auto].
        destruct (nth_error fs g) as [v|] eqn:Eg; [|discriminate]. injection Hb as <-. apply W2; eapply nth_error_In; eauto.
  Qed.

  Lemma holds_field h cs fs f v : nth_error fs f = Some v -> holds (mkState h cs fs) (InField f) (h_cells v).
  Proof. intro H. cbn. rewrite H. reflexivity. Qed.

  Lemma step_effect st o st' x : well_formed st -> step mk wkt st o = Ok (st', x) -> effect o st st'.
  Proof.
    destruct st as [h cs fs]. intros W H.
    assert (WF : forall f v, nth_error fs f = Some v -> h_cells v < length h).
    { intros f v Hf. destruct W as [_ W2]. cbn in W2. rewrite Forall_forall in W2. apply W2. eapply nth_error_In; eauto. }
    assert (WC : forall f v, nth_error cs f = Some v -> v < length h).
    { intros f v Hf. destruct W as [W2 _]. cbn in W2. rewrite Forall_forall in W2. apply W2. eapply nth_error_In; eauto. }
    unfold step in H. cbn [st_heap st_cells st_field] in H.
    assert (EN : forall f v s vs, nth_error fs f = Some v -> names o (InField f) -> good h v s vs ->
      ended h cs fs f s = Ok (st', x) -> effect o (mkState h cs fs) st').
    { intros f v [[h' f'] r] vs Hf N G HE. assert (Lf : f < length fs) by (apply nth_error_Some; congruence).
      destruct G as (E & L & C & _). unfold ended in HE.
      assert (Q : st' = mkState h' cs (assign fs f f')) by (destruct r; congruence). subst st'.
      apply effect_field; auto. destruct C as [->|C]; [left|right; exact C]. exists (InField f). split; [exact N|].
      apply holds_field; exact Hf. }
    destruct o;
      repeat match type of H with
      | context [var ?l ?y] =>
          let V := fresh "V" in pose proof (var_some l y) as V;
          let E := fresh "E" in destruct (nth_error l y) eqn:E;
          [let K := fresh "K" in destruct V as [K V]; rewrite K in H; clear K|rewrite V in H]; cbn [bind] in H; try discriminate
      end; cbn [alloc] in H;
      try (injection H as <- <-; apply effect_field; cbn; auto using ext_refl; try (eapply WF; eassumption);
           left; eexists (InField _); split; [cbn; auto|apply holds_field; eassumption]; fail).
    - injection H as <- <-. apply effect_cells; cbn; auto using ext_alloc. rewrite app_length; simpl; lia.
    - injection H as <- <-. apply effect_cells; cbn; eauto using ext_refl. left. exists (InCells x0). cbn. auto.
    - injection H as <- <-. apply (effect_edit _ h cs fs (InCells x0)); cbn; auto.
    - injection H as <- <-. apply effect_field; cbn; auto using ext_alloc. rewrite app_length; simpl; lia.
    - pose proof (h_make_good wkt h (deref h n) id) as M.
      destruct (h_make wkt h (deref h n) id) as [[h' g]| | |]; try discriminate. destruct M as (Ex & [L1 L2] & _).
      cbn [bind fst snd] in H. injection H as <- <-. apply effect_field; cbn; auto.
    - injection H as <- <-. apply effect_field; cbn; eauto using ext_refl. left. exists (InField f). cbn. rewrite E. auto.
    - match type of H with bind (h_clone wkt h ?a) _ = _ =>
        pose proof (h_clone_good wkt h a) as M; destruct (h_clone wkt h a) as [[h' w]| | |]; try discriminate end.
      destruct M as (Ex & [L1 L2] & _).
      cbn [bind fst snd] in H. injection H as <- <-. apply effect_field; cbn; auto.
    - injection H as <- <-. apply effect_field; cbn; eauto using ext_refl. left. exists (InCells x0). cbn. auto.
    - injection H as <- <-. apply effect_cells; cbn; eauto using ext_refl. left. exists (InField f). cbn. rewrite E. auto.
    - injection H as <- <-. apply (effect_edit _ h cs fs (InField f)); cbn; auto. rewrite E; reflexivity.
    - eapply EN; [exact E|reflexivity| |exact H]. apply h_transform_good. eauto.
    - eapply EN; [exact E|reflexivity| |exact H]. apply h_toUTM_good. eauto.
    - eapply EN; [exact E|reflexivity| |exact H]. apply h_toPrevCRS_good. eauto.
  Qed.

  Lemma names_dec o p : names o p \/ ~ names o p.
  Proof. clear mk wkt. destruct o, p; cbn; try (right; tauto); lia. Qed.

  Lemma effect_wf o st st' : effect o st st' -> well_formed st -> well_formed st'.
  Proof.
    intros [E1 E2 E3 E4 E5] [W1 W2]. rewrite Forall_forall in W1, W2. split; apply Forall_forall.
    - intros a Ha. apply In_nth_error in Ha. destruct Ha as [y Hy].
      destruct (names_dec o (InCells y)) as [N|N].
      + apply (E5 (InCells y) a Hy N).
      + rewrite E3 in Hy by exact N. eapply Nat.lt_le_trans; [apply W1; eapply nth_error_In; eauto|exact E1].
    - intros v Hv. apply In_nth_error in Hv. destruct Hv as [g Hg].
      destruct (names_dec o (InField g)) as [N|N].
      + apply (E5 (InField g) (h_cells v)); [cbn; rewrite Hg; reflexivity|exact N].
      + rewrite E4 in Hg by exact N. eapply Nat.lt_le_trans; [apply W2; eapply nth_error_In; eauto|exact E1].
  Qed.

  Lemma effect_holds o st st' p a : effect o st st' -> ~ names o p -> (holds st' p a <-> holds st p a).
  Proof.
    intros [E1 E2 E3 E4 E5] N. destruct p as [y|g]; cbn; [rewrite E3 by exact N|rewrite E4 by exact N]; tauto.
  Qed.
  Lemma holds_bound st p a : well_formed st -> holds st p a -> a < length (st_heap st).
  Proof.
    intros [W1 W2] H. rewrite Forall_forall in W1, W2. destruct p as [y|g]; cbn in H.
    - apply W1. eapply nth_error_In; eauto.
    - destruct (nth_error (st_field st) g) as [v|] eqn:E; [|discriminate]. injection H as <-. apply W2. eapply nth_error_In; eauto.
  Qed.

  Lemma effect_apart (G : place -> Prop) o st st' : well_formed st ->
    effect o st st' -> apart G st -> (forall p, names o p -> G p) -> apart G st'.
  Proof.
    intros W E A N p q a Gp Gq Hp Hq.
    assert (Nq : ~ names o q) by (intro Q; apply Gq, N, Q).
    pose proof (proj1 (effect_holds o st st' q a E Nq) Hq) as Hq0.
    destruct (names_dec o p) as [Np|Np].
    - destruct (e_new o st st' E p a Hp Np) as [_ [(r & Nr & Hr)|L]].
      + exact (A r q a (N r Nr) Gq Hr Hq0).
      + pose proof (holds_bound st q a W Hq0). lia.
    - exact (A p q a Gp Gq (proj1 (effect_holds o st st' p a E Np) Hp) Hq0).
  Qed.

  Lemma effect_outside (G : place -> Prop) o st st' : well_formed st ->
    effect o st st' -> apart G st -> (forall p, names o p -> G p) ->
    same_outside G (views st) (views st').
  Proof.
    intros W E A N.
    assert (D : forall q a, ~ G q -> holds st q a -> deref (st_heap st') a = deref (st_heap st) a).
    { intros q a Gq Hq. apply (e_heap o st st' E); [eapply holds_bound; eauto|].
      intros r Nr Hr. exact (A r q a (N r Nr) Gq Hr Hq). }
    split.
    - intros x Gx. assert (Nx : ~ names o (InCells x)) by auto. unfold views. cbn [v_cells]. rewrite !nth_error_map.
      rewrite (e_cells o st st' E x Nx). destruct (nth_error (st_cells st) x) as [a|] eqn:Ex; simpl; auto.
      f_equal. apply (D (InCells x)); auto.
    - intros f Gf. assert (Nf : ~ names o (InField f)) by auto. unfold views. cbn [v_field]. rewrite !nth_error_map.
      rewrite (e_field o st st' E f Nf). destruct (nth_error (st_field st) f) as [v|] eqn:Ef; simpl; auto.
      do 2 f_equal. apply (D (InField f)); auto. cbn. rewrite Ef. reflexivity.
  Qed.

  (** A field that has got a new object shares it with nothing. *)
  Lemma new_apart st h' g v a : well_formed st -> length (st_heap st) <= a -> h_cells v = a ->
    g < length (st_field st) ->
    apart (fun p => p = InField g) (mkState h' (st_cells st) (assign (st_field st) g v)).
  Proof.
    intros W L Ev Lg p q b -> Nq Hp Hq. cbn in Hp. rewrite assign_same in Hp by exact Lg. cbn in Hp.
    injection Hp as <-. rewrite Ev in Hq.
    assert (H : holds st q a).
    { destruct q as [y|k]; cbn in Hq |- *; [exact Hq|]. rewrite assign_other in Hq; [exact Hq|]. intros ->. apply Nq; reflexivity. }
    pose proof (holds_bound st q a W H). lia.
  Qed.
  Lemma transform_new h f to : cells_isEmpty RNum (deref h (h_cells f)) = false ->
    match h_transform mk wkt h f to with (_, f', _) => length h <= h_cells f' end.
  Proof.
    intro E. unfold h_transform. rewrite E. cbn [negb alloc].
    destruct (generateCoordTransf mk _ to) as [ct| | |]; cbn [h_eval]; try (cbn; lia).
    destruct (bind (cells_getCellBorder RNum _ 0) _) as [ref| | |]; cbn [h_eval]; try (cbn; lia).
    cbn [h_setCRS h_setPrevCRS h_setField h_cells]. rewrite assign_length, app_length. lia.
  Qed.
End Effect.
