(** Proofs about the sharing of lines: programs that never copy. *)
From Coq Require Import List Arith ZArith Bool Lia Permutation.
From Verif Require Import Outcome ListAux Swath_Model Swath_Proofs Swath_Proofs2
  Alias_Model Alias_Spec Alias_Proofs Alias_Proofs2 Alias_Proofs3 Alias_Proofs4 Alias_Proofs5.
Import ListNotations.
Local Arguments addrs : simpl never.
Local Arguments deref : simpl never.

Section NoShare.
  Context {P W : Type}.
  Variable w_nonpos : W -> bool.
  Variable w_zero : W.
  Variable p_default : P.
  Variable p_lt : P -> P -> bool.
  Variable wkt : P -> P.
  Variable sort_perm : list Z -> list nat.
  Variable move_points : P -> list P -> outcome (list P).
  Hypothesis perm_ok : forall ids, Permutation (sort_perm ids) (seq 0 (length ids)).
  Notation heap := (@heap P).
  Notation hswath := (swath nat W).
  Notation state := (@state P W).
  Notation op := (@op P W).
  Notation step := (step w_nonpos w_zero p_default p_lt wkt sort_perm move_points).
  Notation vstep := (vstep w_nonpos w_zero p_default p_lt wkt sort_perm move_points).
  Notation run := (run w_nonpos w_zero p_default p_lt wkt sort_perm move_points).
  Notation vrun := (vrun w_nonpos w_zero p_default p_lt wkt sort_perm move_points).
  Notation careful := (careful w_nonpos w_zero p_default p_lt wkt sort_perm move_points).

  Record alone (st : state) : Prop := {
    al_nodup : forall c, NoDup (addrs (st_cont st c));
    al_conts : forall c d a, In a (addrs (st_cont st c)) -> In a (addrs (st_cont st d)) -> c = d;
    al_mixed : forall c x a, In a (addrs (st_cont st c)) -> st_line st x <> Some a;
    al_lines : forall x y a, st_line st x = Some a -> st_line st y = Some a -> x = y
  }.

  Lemma nodup_index n (l : list hswath) : Forall (wfs n) l -> NoDup (addrs l) ->
    forall i j s t a, nth_error l i = Some s -> nth_error l j = Some t ->
       sw_path s = [a] -> sw_path t = [a] -> i = j.
  Proof.
    induction l; intros Wf ND i j s t b Ei Ej Es Et; [destruct i; discriminate|].
    inversion Wf; subst.
    destruct i, j; auto; cbn [nth_error] in *.
    - injection Ei as ->. exfalso. eapply (notin_addrs s l b ND).
      + apply in_flat_map. exists t. split; [eapply nth_error_In; eauto|rewrite Et; left; auto].
      + rewrite Es. left; auto.
    - injection Ej as ->. exfalso. eapply (notin_addrs t l b ND).
      + apply in_flat_map. exists s. split; [eapply nth_error_In; eauto|rewrite Es; left; auto].
      + rewrite Et. left; auto.
    - f_equal. eapply IHl; eauto. eapply nodup_tail; eauto.
  Qed.

  Lemma alone_unshared st : well_formed st -> alone st -> forall p, unshared st p.
  Proof.
    intros Wf [A B C D] p a q Hp Hq. destruct p as [x|c i], q as [y|d j].
    - f_equal. apply (D y x a); auto.
    - exfalso. apply (C d x a); auto. apply in_addrs_holds; eauto.
    - exfalso. apply (C c y a); auto. apply in_addrs_holds; eauto.
    - assert (d = c).
      { apply (B d c a); apply in_addrs_holds; eauto. }
      subst d. f_equal. destruct Hp as (s & Es & Ps), Hq as (t & Et & Pt).
      eapply (nodup_index _ _ (wf_forall st c Wf) (A c)); eauto.
  Qed.

  Lemma alone_set_cont st (h' : heap) c l : well_formed st -> alone st ->
    NoDup (addrs l) ->
    (forall a, In a (addrs l) -> length (st_heap st) <= a \/ In a (addrs (st_cont st c))) ->
    alone (mkState h' (st_line st) (set (st_cont st) c l)).
  Proof.
    intros Wf [A B C D] ND S0.
    assert (Old : forall d a, In a (addrs (st_cont st d)) -> a < length (st_heap st)).
    { intros d a I. eapply addrs_lt; [apply wf_forall; exact Wf|exact I]. }
    split; cbn.
    - intro d. unfold set. destruct (d =? c); auto.
    - intros d e a. unfold set. destruct (Nat.eqb_spec d c), (Nat.eqb_spec e c); subst; auto; intros I J.
      + destruct (S0 a I) as [L|I']; [apply Old in J; lia|eauto].
      + destruct (S0 a J) as [L|I']; [apply Old in I; lia|eauto].
      + eauto.
    - intros d x a. unfold set. destruct (Nat.eqb_spec d c); subst; intros I E.
      + destruct (S0 a I) as [L|I']; [pose proof (proj1 Wf x a E); lia|]. eapply C; eauto.
      + eapply C; eauto.
    - auto.
  Qed.

  Lemma alone_set_line st (h' : heap) x : well_formed st -> alone st ->
    alone (mkState h' (set (st_line st) x (Some (length (st_heap st)))) (st_cont st)).
  Proof.
    intros Wf [A B C D].
    assert (Old : forall d a, In a (addrs (st_cont st d)) -> a < length (st_heap st)).
    { intros d a I. eapply addrs_lt; [apply wf_forall; exact Wf|exact I]. }
    split; cbn; auto.
    - intros c y a I E. apply set_line_eq in E. destruct E as [[-> ->]|[N E]].
      + apply Old in I. lia.
      + eapply C; eauto.
    - intros y z a E F. apply set_line_eq in E. apply set_line_eq in F.
      destruct E as [[-> ->]|[N E]], F as [[-> F]|[N' F]]; auto.
      + pose proof (proj1 Wf _ _ F). lia.
      + subst a. pose proof (proj1 Wf _ _ E). lia.
      + eauto.
  Qed.

  Lemma step_alone st st' (o : op) : well_formed st -> alone st -> shares o = false ->
    step st o = Ok st' -> alone st'.
  Proof.
    intros Wf Al Sh. assert (WC := fun c => wf_forall st c Wf).
    destruct o; try discriminate; cbn [Alias_Model.step h_new_line h_clone_line]; intro E.
    - injection E as <-. apply alone_set_line; auto.
    - unfold get_line in E. destruct (st_line st x) as [a|] eqn:Ex; cbn in E; [|discriminate].
      injection E as <-. apply alone_set_line; auto.
    - unfold get_line in E. destruct (st_line st x) as [a|] eqn:Ex; cbn in E; [|discriminate].
      injection E as <-. destruct Al as [A B C D]. split; auto.
    - destruct (hs_new w_nonpos w_zero _ w id ty) as [s| | |] eqn:En; cbn [bind] in E; try discriminate.
      apply new_swath_path in En. injection E as <-.
      assert (AA : addrs (st_cont st c ++ [s]) = addrs (st_cont st c) ++ [length (st_heap st)]).
      { rewrite addrs_app. f_equal. unfold addrs. cbn. rewrite En. reflexivity. }
      apply alone_set_cont; auto; rewrite AA.
      + apply NoDup_app_rev || (eapply Permutation_NoDup; [apply Permutation_cons_append|]).
        constructor; [|apply Al]. intro I. assert (X := addrs_lt _ _ _ (WC c) I). lia.
      + intros a I. apply in_app_or in I. destruct I as [I|[<-|[]]]; auto.
    - injection E as <-. apply alone_set_cont; auto; [constructor|intros a []].
    - pose proof (clone_list w_nonpos w_zero wkt (st_cont st c) (st_heap st) (WC c)) as CL.
      destruct (hss_clone w_nonpos w_zero wkt (st_heap st) (st_cont st c)) as [[l' h']| | |]; cbn [bind] in E; try discriminate.
      injection E as <-. inversion CL as [r0 v0 [Fr _] E0 E1| | |]; subst. cbn [fst snd] in Fr.
      apply fresh_from_result in Fr. destruct Fr as (F1 & F2 & F3 & F4 & F5). cbn [fst snd] in *.
      apply alone_set_cont; auto.
    - unfold vec_at in E. destruct (nth_error (st_cont st c) i) as [s|] eqn:Es; cbn [bind] in E; [|discriminate].
      destruct (reverse_at (st_heap st) (st_cont st c) i s (WC c) Es) as (l2 & A & B & C & D & F & _).
      destruct (hs_reverse (st_heap st) s) as [s' h'] eqn:Er. cbn [fst snd] in *.
      rewrite A in E. cbn [bind] in E. injection E as <-. apply alone_set_cont; auto; rewrite B; auto. apply Al.
    - injection E as <-. unfold swaths_reverse.
      assert (PP : Permutation (addrs (st_cont st c)) (addrs (rev (st_cont st c))))
        by (apply addrs_perm, Permutation_rev).
      apply alone_set_cont; auto.
      + eapply Permutation_NoDup; [exact PP|apply Al].
      + intros a I. right. eapply Permutation_in; [symmetry; exact PP|auto].
    - destruct (dirodd_ok (st_cont st c) (st_heap st) (WC c)) as (R1 & R2 & R3 & R4 & R5).
      destruct (hss_reverseDirOddSwaths (st_heap st) (st_cont st c)) as [l' h']. cbn [fst snd] in *.
      injection E as <-. apply alone_set_cont; auto.
      + eapply Permutation_NoDup; [exact R3|apply Al].
      + intros a I. right. eapply Permutation_in; [symmetry; exact R3|auto].
    - destruct (sort_ok sort_perm perm_ok p_default p_lt (st_heap st) (st_cont st c) (WC c))
        as (R1 & R2 & R3 & R4 & R5).
      destruct (hss_sort p_default p_lt sort_perm (st_heap st) (st_cont st c)) as [l' h']. cbn [fst snd] in *.
      injection E as <-. apply alone_set_cont; auto.
      + eapply Permutation_NoDup; [exact R3|apply Al].
      + intros a I. right. eapply Permutation_in; [symmetry; exact R3|auto].
    - destruct (hss_moveTo move_points (st_heap st) ref_pt (st_cont st c)) as [h'| | |] eqn:Em; cbn [bind] in E; try discriminate.
      injection E as <-. destruct Al as [A B C D]. split; auto.
    - pose proof (gen_ok w_nonpos w_zero p_default p_lt wkt sort_perm perm_ok k (st_heap st) (st_cont st c) v (WC c)) as G.
      destruct (h_genSortedSwaths _ _ _ _ _ _ k (st_heap st) (st_cont st c) v) as [[l' h']| | |];
        cbn [bind] in E; try discriminate.
      injection E as <-. inversion G as [r0 v0 [Fr _] E0 E1| | |]; subst.
      destruct Fr as (F1 & F2 & F3 & F4 & F5). cbn [fst snd] in *.
      apply alone_set_cont; auto.
  Qed.

  Lemma alone_careful : forall ops st, well_formed st -> alone st ->
    Forall (fun o => shares o = false) ops -> careful st ops.
  Proof.
    induction ops; intros st Wf Al Sh; cbn [Alias_Spec.careful]; auto.
    inversion Sh; subst. split.
    - intros p _. apply alone_unshared; auto.
    - intros st' E. apply IHops; auto.
      + eapply step_wf; eauto.
      + eapply step_alone; eauto.
  Qed.

  Lemma init_wf : well_formed (@st_init P W).
  Proof. split; cbn; [discriminate|contradiction]. Qed.
  Lemma init_alone : alone (@st_init P W).
  Proof. split; cbn; try constructor; try contradiction; try discriminate. Qed.
End NoShare.
