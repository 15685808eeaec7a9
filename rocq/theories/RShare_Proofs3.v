(** Proofs about routes that share their connections: what a statement changes, and what
    follows for programs. *)
From Coq Require Import List Arith Bool Lia.
From Verif Require Import Outcome ListAux Graph_Proofs4 Swath_Model Route_Model Alias_Spec Parts_Model Parts_Spec Parts_Proofs
  Holder_Proofs Holder_Proofs2 RShare_Model RShare_Spec RShare_Proofs RShare_Proofs2.
Import ListNotations.
Local Open Scope nat_scope.

Section Effects.
  Context {P W : Type}.
  Variable w_nonpos : W -> bool.
  Variable w_zero : W.
  Variable wkt : P -> P.
  Variables grow fit : nat -> nat.
  Notation heap := (list (list P)).
  Notation hroute := (hroute P W).
  Notation state := (state P W).
  Notation op := (op P W).
  Notation deref := (@RShare_Model.deref P).
  Notation step := (step w_nonpos w_zero wkt grow fit).
  Notation vstep := (vstep w_nonpos w_zero wkt).

  (** The objects after a statement: the old ones, with points added where the statement
      writes. *)
  Definition heap_eff (st : state) (o : op) (h' : heap) : Prop :=
    length (st_heap st) <= length h' /\
    forall a, a < length (st_heap st) -> deref h' a = deref (st_heap st) a \/
      exists p l, writes st o p l /\ l <> [] /\ holds st p a.
  Definition source (st : state) (o : op) (h' : heap) (p : place) (a : nat) : Prop :=
    holds st p a \/
    (shares o = true /\ names o (of_place p) /\ exists q, names o (of_place q) /\ holds st q a) \/
    (length (st_heap st) <= a < length h' /\ names o (of_place p)).
  Record eff (st : state) (o : op) (st' : state) : Prop := mkEff {
    eff_heap : heap_eff st o (st_heap st');
    eff_source : forall p a, holds st' p a -> source st o (st_heap st') p a;
    eff_new : forall p q a, length (st_heap st) <= a -> holds st' p a -> holds st' q a -> p = q;
    eff_pts : forall x, ~ names o (VPts x) -> nth_error (st_pts st') x = nth_error (st_pts st) x;
    eff_route : forall r, ~ names o (VRoute r) -> nth_error (st_route st') r = nth_error (st_route st) r;
    eff_bal : Forall (fun v => length (hr_swaths v) <= length (hr_conns v)) (st_route st')
  }.

  Lemma heap_eff_rext (st : state) o h' : rext (st_heap st) h' -> heap_eff st o h'.
  Proof. intros [L E]. split; auto. Qed.

  Lemma put_eff (st : state) o r h' v' : well_formed st -> names o (VRoute r) -> heap_eff st o h' ->
    (forall i a, nth_error (hr_conns v') i = Some a -> source st o h' (InConn r i) a) ->
    (forall i j a, length (st_heap st) <= a -> nth_error (hr_conns v') i = Some a -> nth_error (hr_conns v') j = Some a -> i = j) ->
    length (hr_swaths v') <= length (hr_conns v') ->
    eff st o (put st r (h', v')).
  Proof.
    intros Wf N H S Q B.
    assert (K : forall p a, holds (put st r (h', v')) p a ->
      (exists i, p = InConn r i /\ nth_error (hr_conns v') i = Some a) \/ holds st p a).
    { intros [x|s i] a Hp; cbn in Hp; [right; exact Hp|]. destruct Hp as (w & Hw & Hi).
      apply assign_case in Hw. destruct Hw as [(-> & -> & _)|(_ & Hw)]; [left; eauto|]. right. exists w; auto. }
    constructor; cbn [put st_heap st_pts st_route fst snd]; auto.
    - intros p a Hp. destruct (K p a Hp) as [(i & -> & Hi)|Ho]; [apply S; exact Hi|left; exact Ho].
    - intros p q a La Hp Hq. destruct (K p a Hp) as [(i & -> & Hi)|Ho]; [|apply (holds_lt st) in Ho; auto; lia].
      destruct (K q a Hq) as [(j & -> & Hj)|Ho]; [|apply (holds_lt st) in Ho; auto; lia].
      f_equal. eapply Q; eauto.
    - intros s Ns. apply assign_other. intro; subst; auto.
    - apply Forall_forall. intros w Hw. apply assign_In in Hw. destruct Hw as [->|Hw]; auto.
      destruct Wf as [_ W2]. rewrite Forall_forall in W2. apply W2. exact Hw.
  Qed.

  Lemma pts_eff (st : state) o x h' b : well_formed st -> names o (VPts x) -> heap_eff st o h' -> source st o h' (InPts x) b ->
    eff st o (mkState h' (assign (st_pts st) x b) (st_route st)).
  Proof.
    intros Wf N H S.
    assert (K : forall p a, holds (mkState h' (assign (st_pts st) x b) (st_route st)) p a ->
      (p = InPts x /\ a = b) \/ holds st p a).
    { intros [y|s i] a Hp; cbn in Hp; [|right; exact Hp]. apply assign_case in Hp. destruct Hp as [(-> & -> & _)|(_ & Hp)]; auto. }
    constructor; cbn [st_heap st_pts st_route]; auto.
    - intros p a Hp. destruct (K p a Hp) as [(-> & ->)|Ho]; [exact S|left; exact Ho].
    - intros p q a La Hp Hq. destruct (K p a Hp) as [(-> & _)|Ho]; [|apply (holds_lt st) in Ho; auto; lia].
      destruct (K q a Hq) as [(-> & _)|Ho]; [|apply (holds_lt st) in Ho; auto; lia]. reflexivity.
    - intros s Ns. apply assign_other. intro; subst; auto.
    - destruct Wf as [_ W2]. eapply Forall_impl; [|exact W2]. simpl. intros w [_ Hb]. exact Hb.
  Qed.

  Lemma same_eff (st : state) o h' : well_formed st -> heap_eff st o h' -> eff st o (mkState h' (st_pts st) (st_route st)).
  Proof.
    intros Wf H. constructor; cbn [st_heap st_pts st_route]; auto.
    - intros p a Hp. left. destruct p; exact Hp.
    - intros p q a La Hp Hq. assert (Ho : holds st p a) by (destruct p; exact Hp). apply (holds_lt st) in Ho; auto; lia.
    - destruct Wf as [_ W2]. eapply Forall_impl; [|exact W2]. simpl. intros w [_ Hb]. exact Hb.
  Qed.

  (** A function that keeps the connections, perhaps with a new one after them. *)
  Definition grows (h : heap) (v : hroute) (h' : heap) (v' : hroute) : Prop :=
    length h <= length h' /\
    (hr_conns v' = hr_conns v \/ (hr_conns v' = hr_conns v ++ [length h] /\ length h < length h')) /\
    length (hr_swaths v') <= length (hr_conns v').

  Lemma grow_eff (st : state) o r v h' v' : well_formed st -> names o (VRoute r) -> nth_error (st_route st) r = Some v ->
    heap_eff st o h' -> grows (st_heap st) v h' v' -> eff st o (put st r (h', v')).
  Proof.
    intros Wf N Hv H (L & G & B). pose proof (wf_route st r v Wf Hv) as R.
    assert (K : forall i a, nth_error (hr_conns v') i = Some a ->
      nth_error (hr_conns v) i = Some a \/ (a = length (st_heap st) /\ i = length (hr_conns v) /\ length (st_heap st) < length h')).
    { intros i a Hi. destruct G as [G|[G G2]]; rewrite G in Hi; auto.
      destruct (le_lt_dec (length (hr_conns v)) i) as [E|E]; [|rewrite nth_error_app1 in Hi by exact E; auto].
      right. rewrite nth_error_app2 in Hi by exact E. destruct (i - length (hr_conns v)) as [|k] eqn:Ek; [|destruct k; discriminate].
      simpl in Hi. injection Hi as <-. split; auto. split; [lia|exact G2]. }
    apply put_eff; auto.
    - intros i a Hi. destruct (K i a Hi) as [Ho|(-> & -> & G2)]; [left; exists v; auto|]. right; right. split; [lia|exact N].
    - intros i j a La Hi Hj. destruct (K i a Hi) as [Ho|(_ & -> & _)]; [apply (rwf_at (st_heap st)) in Ho; auto; lia|].
      destruct (K j a Hj) as [Ho|(_ & -> & _)]; [apply (rwf_at (st_heap st)) in Ho; auto; lia|]. reflexivity.
  Qed.

  Lemma addConnection_grows (h : heap) (v : hroute) : rwf h v -> grows h v (fst (h_addConnection grow h v)) (snd (h_addConnection grow h v)).
  Proof.
    intro R. split; [apply addConnection_rext|]. split; [|apply addConnection_rwf; exact R].
    unfold h_addConnection. destruct (_ <=? _); cbn; auto. right. rewrite app_length. simpl. split; auto. lia.
  Qed.
  Lemma append_conns (h : heap) (v : hroute) l : hr_conns (snd (h_append grow h v l)) = hr_conns (snd (h_addConnection grow h v)) /\
    hr_swaths (snd (h_append grow h v l)) = hr_swaths (snd (h_addConnection grow h v)).
  Proof. unfold h_append. destruct (h_addConnection grow h v). auto. Qed.
  Lemma append_grows (h : heap) (v : hroute) l : rwf h v -> grows h v (fst (h_append grow h v l)) (snd (h_append grow h v l)).
  Proof.
    intro R. destruct (addConnection_grows h v R) as (A & B & C). unfold grows. rewrite append_heap_length.
    destruct (append_conns h v l) as [-> ->]. auto.
  Qed.
  Lemma append_heap_eff (st : state) o r v l : well_formed st -> nth_error (st_route st) r = Some v -> adds st o r l ->
    heap_eff st o (fst (h_append grow (st_heap st) v l)).
  Proof.
    intros Wf Hv A. pose proof (wf_route st r v Wf Hv) as R. split; [apply append_len|]. intros a La.
    rewrite append_old by auto. destruct (_ && _) eqn:E; auto. apply andb_true_iff in E. destruct E as [E1 E2].
    apply Nat.ltb_lt in E1. apply Nat.eqb_eq in E2. destruct l as [|p l]; [left; apply app_nil_r|]. right.
    destruct (length (hr_conns v)) as [|i] eqn:Ei; [lia|]. exists (InConn r i), (p :: l). split; [|split; [discriminate|]].
    - right. split; auto. exists v. rewrite Ei. auto.
    - exists v. split; auto. rewrite E2. apply last_at. auto.
  Qed.

  Lemma emplace0_grows (h : heap) (v : hroute) : rwf h v ->
    let s := if length (hr_conns v) =? 0 then h_emplace grow h v else (h, v) in
    length h <= length (fst s) /\
    (hr_conns (snd s) = hr_conns v \/ (hr_conns (snd s) = hr_conns v ++ [length h] /\ length h < length (fst s))) /\
    length (hr_swaths (snd s)) <= length (hr_conns (snd s)) /\ 0 < length (hr_conns (snd s)).
  Proof.
    intros [_ B]. destruct (length (hr_conns v) =? 0) eqn:E; cbn.
    - rewrite !app_length. simpl. split; [lia|]. split; [right; split; [reflexivity|lia]|]. lia.
    - apply Nat.eqb_neq in E. split; [lia|]. split; [auto|]. lia.
  Qed.
  Lemma upd_back_length {B} (f : B -> B) l l' : upd_back f l = Ok l' -> length l' = length l /\ 0 < length l.
  Proof.
    unfold upd_back. destruct (rev l) as [|a t] eqn:E; [discriminate|]. intro H. injection H as <-.
    assert (Q : length (rev l) = length l) by apply rev_length. rewrite E in Q. simpl in Q.
    rewrite app_length, rev_length. simpl. lia.
  Qed.
  Lemma addSwaths_grows (h : heap) (v : hroute) l hv : rwf h v -> h_addSwaths grow h v l = Ok hv ->
    rext h (fst hv) /\ grows h v (fst hv) (snd hv).
  Proof.
    intros R H. split.
    { pose proof (addSwaths_fn grow h v l R) as A. unfold apart_fn in A. rewrite H in A. inversion A; tauto. }
    unfold h_addSwaths in H. destruct (emplace0_grows h v R) as (A & B & C & D). cbv zeta in *.
    destruct (if length (hr_conns v) =? 0 then h_emplace grow h v else (h, v)) as [h1 r1]. cbn [fst snd] in *.
    destruct (length (hr_swaths r1) <? length (hr_conns r1)) eqn:E.
    - injection H as <-. cbn. split; auto. split; auto. cbn. rewrite app_length. simpl. apply Nat.ltb_lt in E. lia.
    - destruct (upd_back _ _) as [w| | |] eqn:Eu; cbn [bind] in H; try discriminate. injection H as <-.
      apply upd_back_length in Eu. split; auto. split; auto. cbn. lia.
  Qed.
  Lemma addSwath_grows (h : heap) (v : hroute) l hv : rwf h v -> h_addSwath grow h v l = Ok hv ->
    rext h (fst hv) /\ grows h v (fst hv) (snd hv).
  Proof.
    intros R H. split.
    { pose proof (addSwath_fn grow h v l R) as A. unfold apart_fn in A. rewrite H in A. inversion A; tauto. }
    unfold h_addSwath in H. destruct (emplace0_grows h v R) as (A & B & C & D). cbv zeta in *.
    assert (Es : hr_swaths (snd (if length (hr_conns v) =? 0 then h_emplace grow h v else (h, v))) = hr_swaths v)
      by (destruct (_ =? 0); reflexivity).
    destruct (if length (hr_conns v) =? 0 then h_emplace grow h v else (h, v)) as [h1 r1]. cbn [fst snd] in *.
    destruct (upd_back _ _) as [w| | |] eqn:Eu; cbn [bind] in H; try discriminate. injection H as <-.
    apply upd_back_length in Eu. split; auto. split; auto. cbn. destruct Eu as [-> _].
    destruct (_ || _) eqn:E; [|exact C]. rewrite app_length. simpl. apply orb_true_iff in E.
    rewrite Es in *. destruct E as [E|E]; [apply Nat.ltb_lt in E|apply Nat.eqb_eq in E]; lia.
  Qed.

  Lemma var_ok {B} (l : list B) x b : var l x = Ok b -> nth_error l x = Some b.
  Proof. unfold var, vec_at. destruct (nth_error l x); congruence. Qed.
  Lemma index_ok {B} (l : list B) x b : vec_index l x = Ok b -> nth_error l x = Some b.
  Proof. unfold vec_index. destruct (nth_error l x); congruence. Qed.
  Lemma set_ok {B} (l : list B) x b l' : vec_set l x b = Ok l' -> l' = assign l x b /\ x < length l.
  Proof.
    intro H. destruct (le_lt_dec (length l) x) as [G|G]; [rewrite vec_set_out in H by exact G; discriminate|].
    rewrite vec_set_assign in H by exact G. injection H as <-. auto.
  Qed.

  Lemma step_eff (st st' : state) o : well_formed st -> step st o = Ok st' -> eff st o st'.
  Proof.
    intros Wf H. destruct o as [x l|x y|x p|s|s t|s t|s i x|s i x|s i p|s|s p|s x|s l|s i|s w|s l|s i l]; cbn [RShare_Model.step] in H; boks H; injection H as <-;
      repeat match goal with E : var _ _ = Ok _ |- _ => apply var_ok in E end.
    - apply pts_eff; auto; [reflexivity|apply heap_eff_rext, rext_app|]. right; right. rewrite app_length. simpl. split; [lia|reflexivity].
    - apply pts_eff; auto; [right; reflexivity|apply heap_eff_rext, rext_refl|]. right; left. split; auto. split; [right; reflexivity|].
      exists (InPts x). split; [left; reflexivity|exact E].
    - apply same_eff; auto. pose proof (wf_pts st x _ Wf E) as L. unfold h_addPoint. split; [rewrite assign_length; auto|].
      intros a La. rewrite rderef_assign by exact L. destruct (a =? r) eqn:Ea; auto. apply Nat.eqb_eq in Ea. subst a. right.
      exists (InPts x), [p]. split; [exists p; auto|]. split; [discriminate|exact E].
    - apply put_eff; auto; try reflexivity; [apply heap_eff_rext, rext_refl|intros [|i] a Hi; discriminate|intros [|i] j a _ Hi; discriminate].
    - pose proof (wf_route st s _ Wf E) as R. apply put_eff; auto; cbn [hr_conns hr_swaths]; [right; reflexivity|apply heap_eff_rext, rext_refl| | |apply R].
      + intros i a Hi. right; left. split; auto. split; [right; reflexivity|]. exists (InConn s i). split; [left; reflexivity|]. exists r; auto.
      + intros i j a La Hi. apply (rwf_at (st_heap st)) in Hi; auto. lia.
    - pose proof (wf_route st s _ Wf E) as R. pose proof (clone_fn w_nonpos w_zero wkt fit (st_heap st) r) as A. unfold apart_fn in A.
      rewrite E1 in A. inversion A as [? ? [X _]| | |]. subst. destruct r1 as [h' v']. cbn [fst snd] in *.
      unfold h_clone in E1. bok E1. injection E1 as <- <-.
      apply put_eff; auto; cbn [hr_conns hr_swaths]; [right; reflexivity|apply heap_eff_rext; exact X| | |].
      + intros i a Hi. right; right. split; [|right; reflexivity]. apply nth_error_In, in_seq in Hi. rewrite app_length, map_length. lia.
      + intros i j a _ Hi Hj. assert (i < length (hr_conns r)). { erewrite <- seq_length. apply nth_error_Some. rewrite Hi. discriminate. }
        assert (j < length (hr_conns r)). { erewrite <- seq_length. apply nth_error_Some. rewrite Hj. discriminate. }
        apply (nth_error_nth _ _ 0) in Hi, Hj. rewrite seq_nth in Hi, Hj by assumption. lia.
      + rewrite seq_length. apply mapM_ok in E2. rewrite <- (Forall2_length E2). apply R.
    - apply index_ok in E1. apply pts_eff; auto; [reflexivity|apply heap_eff_rext, rext_refl|]. right; left. split; auto. split; [reflexivity|].
      exists (InConn s i). split; [reflexivity|]. exists r; auto.
    - pose proof (wf_route st s _ Wf E) as R. apply set_ok in E1. destruct E1 as [-> Li].
      apply put_eff; auto; cbn [hr_conns hr_swaths]; [reflexivity|apply heap_eff_rext, rext_refl| | |rewrite assign_length; apply R].
      + intros k a Hk. apply assign_case in Hk. destruct Hk as [(-> & -> & _)|(_ & Hk)]; [|left; exists r; auto].
        right; left. split; auto. split; [reflexivity|]. exists (InPts x). split; [reflexivity|exact E0].
      + intros k j a La Hk. apply nth_error_In, assign_In in Hk. destruct Hk as [->|Hk]; [apply (wf_pts st x) in E0; auto; lia|].
        destruct R as [F _]. rewrite Forall_forall in F. apply F in Hk. lia.
    - apply index_ok in E0. pose proof (wf_route st s _ Wf E) as R. pose proof (rwf_at _ _ _ _ R E0) as L.
      apply same_eff; auto. unfold h_addPoint. split; [rewrite assign_length; auto|].
      intros a La. rewrite rderef_assign by exact L. destruct (a =? r0) eqn:Ea; auto. apply Nat.eqb_eq in Ea. subst a. right.
      exists (InConn s i), [p]. split; [left; exists p; auto|]. split; [discriminate|]. exists r; auto.
    - pose proof (wf_route st s _ Wf E) as R. rewrite (surjective_pairing (h_addConnection grow _ _)).
      eapply grow_eff; eauto; [reflexivity|apply heap_eff_rext, addConnection_rext|apply addConnection_grows; exact R].
    - pose proof (wf_route st s _ Wf E) as R. rewrite point_append in E0. injection E0 as <-. rewrite (surjective_pairing (h_append _ _ _ _)).
      eapply grow_eff; eauto; [reflexivity|eapply append_heap_eff; eauto; split; reflexivity|apply append_grows; exact R].
    - pose proof (wf_route st s _ Wf E) as R. rewrite points_append in E1 by (auto; eapply wf_pts; eauto). injection E1 as <-.
      rewrite (surjective_pairing (h_append _ _ _ _)).
      eapply grow_eff; eauto; [reflexivity|eapply append_heap_eff; eauto; split; [reflexivity|exists r0; split; [exact E0|reflexivity]]|apply append_grows; exact R].
    - pose proof (wf_route st s _ Wf E) as R. rewrite vec_append in E0 by exact R. injection E0 as <-. rewrite (surjective_pairing (h_append _ _ _ _)).
      eapply grow_eff; eauto; [reflexivity|eapply append_heap_eff; eauto; split; reflexivity|apply append_grows; exact R].
    - pose proof (wf_route st s _ Wf E) as R. unfold h_addConnection_own in E0. bok E0. apply index_ok in E1.
      destruct (_ && _ && _) in E0; [discriminate|]. rewrite points_append in E0 by (auto; eapply rwf_at; eauto). injection E0 as <-.
      rewrite (surjective_pairing (h_append _ _ _ _)).
      eapply grow_eff; eauto; [reflexivity|eapply append_heap_eff; eauto; split; [reflexivity|exists r1; split; [exists r; auto|reflexivity]]|apply append_grows; exact R].
    - pose proof (wf_route st s _ Wf E) as R. destruct (addSwath_grows _ _ _ _ R E0) as [A B]. rewrite (surjective_pairing r0).
      eapply grow_eff; eauto; [reflexivity|apply heap_eff_rext; exact A].
    - pose proof (wf_route st s _ Wf E) as R. destruct (addSwaths_grows _ _ _ _ R E0) as [A B]. rewrite (surjective_pairing r0).
      eapply grow_eff; eauto; [reflexivity|apply heap_eff_rext; exact A].
    - pose proof (wf_route st s _ Wf E) as R. apply set_ok in E0. destruct E0 as [-> Li].
      eapply grow_eff; eauto; [reflexivity|apply heap_eff_rext, rext_refl|]. split; auto. split; auto. cbn. rewrite assign_length. apply R.
  Qed.

  Lemma step_wf (st st' : state) o : well_formed st -> step st o = Ok st' -> well_formed st'.
  Proof.
    intros Wf H. apply step_eff in H; auto. destruct H as [[L _] S _ _ _ B].
    assert (K : forall p a, holds st' p a -> a < length (st_heap st')).
    { intros p a Hp. destruct (S p a Hp) as [Ho|[(_ & _ & q & _ & Ho)|[Hn _]]]; [apply (holds_lt st) in Ho; auto; lia..|lia]. }
    split; apply Forall_forall.
    - intros a Ha. apply In_nth_error in Ha. destruct Ha as [x Hx]. apply (K (InPts x)); exact Hx.
    - intros v Hv. rewrite Forall_forall in B. split; [|auto]. apply Forall_forall. intros a Ha.
      apply In_nth_error in Ha, Hv. destruct Ha as [i Hi]. destruct Hv as [r Hr]. apply (K (InConn r i)). exists v; auto.
  Qed.

  Lemma writes_names (st : state) o p l : writes st o p l -> names o (of_place p).
  Proof.
    destruct p as [x|r i]; cbn [writes of_place].
    - intros (q & -> & _). reflexivity.
    - intros [(q & -> & _)|[A _]]; [reflexivity|]. destruct o; cbn in A; try tauto; destruct A as [-> _]; reflexivity.
  Qed.

  (** Every object has a single place. *)
  Definition solo (st : state) : Prop := forall p, unshared st p.
  Lemma step_solo (st st' : state) o : well_formed st -> solo st -> shares o = false -> step st o = Ok st' -> solo st'.
  Proof.
    intros Wf S N H. apply step_eff in H; auto. destruct H as [_ Src New _ _ _].
    intros p q (a & Hp & Hq). destruct (le_lt_dec (length (st_heap st)) a) as [G|G]; [eapply New; eauto|].
    destruct (Src p a Hp) as [Ho|[(F & _)|[Hn _]]]; [|congruence|lia].
    destruct (Src q a Hq) as [Ho2|[(F & _)|[Hn _]]]; [|congruence|lia].
    apply S. exists a; auto.
  Qed.

  (** A program without statements that share is careful. *)
  Lemma solo_careful ops (st : state) : well_formed st -> solo st -> Forall (fun o => shares o = false) ops ->
    careful w_nonpos w_zero wkt grow fit st ops.
  Proof.
    revert st. induction ops as [|o ops IH]; intros st Wf S F; cbn [careful]; auto.
    inversion F as [|? ? N F']. subst. split; [|split].
    - intros p l _ _. apply S.
    - destruct o; cbn in N |- *; try tauto. discriminate.
    - intros st' H. apply IH; auto; [eapply step_wf; eauto|eapply step_solo; eauto].
  Qed.

  Lemma run_same ops (st : state) : well_formed st -> careful w_nonpos w_zero wkt grow fit st ops ->
    orel shown (run w_nonpos w_zero wkt grow fit ops st) (vrun w_nonpos w_zero wkt ops (views st)).
  Proof.
    unfold run, vrun. revert st. induction ops as [|o ops IH]; intros st Wf C; cbn [foldM]; [constructor; reflexivity|].
    destruct C as (U & D & C). pose proof (step_same w_nonpos w_zero wkt grow fit st o Wf U D) as S.
    destruct (step st o) as [st'| | |] eqn:E; inversion S as [? ? Hs| | |]; subst; cbn [bind]; try constructor.
    unfold shown in Hs. rewrite <- Hs. apply IH; auto. eapply step_wf; eauto.
  Qed.

  (** Groups. *)
  Definition gprog (G : variable -> Prop) (ops : list op) : Prop := Forall (fun o => forall p, names o p -> G p) ops.
  Lemma step_group G (st st' : state) o : well_formed st -> apart G st -> (forall p, names o p -> G p) -> step st o = Ok st' ->
    apart G st' /\ same_outside G (views st) (views st').
  Proof.
    intros Wf A N H. apply step_eff in H; auto. destruct H as [[L E] S _ X R _].
    assert (K : forall q a, ~ G (of_place q) -> holds st q a -> deref (st_heap st') a = deref (st_heap st) a).
    { intros q a Nq Hq. destruct (E a) as [D|(p & l & Wr & _ & Hp)]; [eapply holds_lt; eauto|exact D|].
      exfalso. apply (A p q); auto; [apply N; eapply writes_names; eauto|exists a; auto]. }
    assert (Back : forall q a, ~ G (of_place q) -> holds st' q a -> holds st q a).
    { intros q a Nq Hq. destruct (S q a Hq) as [Ho|[(_ & F & _)|[_ F]]]; auto; exfalso; apply Nq, N, F. }
    split.
    - intros p q Gp Nq (a & Hp & Hq). pose proof (Back q a Nq Hq) as Hq0.
      destruct (S p a Hp) as [Ho|[(_ & _ & p' & F & Ho)|[Hn _]]].
      + apply (A p q); auto. exists a; auto.
      + apply (A p' q); auto. exists a; auto.
      + apply (holds_lt st) in Hq0; auto. lia.
    - rewrite !views_eq. split; cbn [v_pts v_route].
      + intros x Nx. rewrite !nth_error_map, X by auto. destruct (nth_error (st_pts st) x) eqn:Ex; simpl; auto. f_equal.
        apply (K (InPts x)); auto.
      + intros r Nr. rewrite !nth_error_map, R by auto. destruct (nth_error (st_route st) r) as [v|] eqn:Er; simpl; auto. f_equal.
        apply hr_value_ext. intros a Ha. apply In_nth_error in Ha. destruct Ha as [i Hi]. apply (K (InConn r i)); auto. exists v; auto.
  Qed.
  Lemma run_group G ops (st st' : state) : well_formed st -> apart G st -> gprog G ops ->
    run w_nonpos w_zero wkt grow fit ops st = Ok st' -> apart G st' /\ same_outside G (views st) (views st').
  Proof.
    unfold run. revert st. induction ops as [|o ops IH]; intros st Wf A F; cbn [foldM].
    - intro H. injection H as <-. split; auto. split; auto.
    - inversion F as [|? ? N F']. subst. intro H. bok H. destruct (step_group G st _ o Wf A N E) as [A1 S1].
      destruct (IH r) as [A2 S2]; auto; [eapply step_wf; eauto|]. split; auto.
      destruct S1 as [X1 R1]. destruct S2 as [X2 R2]. split.
      + intros x Nx. rewrite X2, X1 by auto. reflexivity.
      + intros k Nk. rewrite R2, R1 by auto. reflexivity.
  Qed.

  (** The start. *)
  Lemma init_wf nx nr : well_formed (st_init (P := P) (W := W) nx nr).
  Proof.
    split; cbn; apply Forall_forall.
    - intros a Ha. apply in_seq in Ha. rewrite repeat_length. lia.
    - intros v Hv. apply repeat_spec in Hv. subst. cbn. split; auto.
  Qed.
  Lemma init_solo nx nr : solo (st_init (P := P) (W := W) nx nr).
  Proof.
    assert (K : forall p a, holds (st_init (P := P) (W := W) nx nr) p a -> p = InPts a).
    { intros [x|r i] a; cbn.
      - intro H. f_equal. assert (x < nx). { erewrite <- (seq_length nx 0). apply nth_error_Some. rewrite H. discriminate. }
        apply (nth_error_nth _ _ 0) in H. rewrite seq_nth in H by assumption. exact H.
      - intros (v & Hv & Hi). apply nth_error_In, repeat_spec in Hv. subst. destruct i; discriminate. }
    intros p q (a & Hp & Hq). rewrite (K p a Hp), (K q a Hq). reflexivity.
  Qed.
End Effects.
