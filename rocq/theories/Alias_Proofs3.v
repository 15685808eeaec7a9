(** Proofs about the sharing of lines: ordering, and the steps of a program. *)
From Coq Require Import List Arith ZArith Bool Lia Permutation.
From Verif Require Import Outcome ListAux Swath_Model Swath_Proofs Swath_Proofs2
  Alias_Model Alias_Spec Alias_Proofs Alias_Proofs2.
Import ListNotations.

Section Gen.
  Context {P W : Type}.
  Variable w_nonpos : W -> bool.
  Variable w_zero : W.
  Variable p_default : P.
  Variable p_lt : P -> P -> bool.
  Variable wkt : P -> P.
  Variable sort_perm : list Z -> list nat.
  Variable move_points : P -> list P -> outcome (list P).
  Hypothesis perm_ok : forall ids, Permutation (sort_perm ids) (seq 0 (length ids)).
  Notation heap := (@heap P).
  Notation hswath := (swath nat W).

  Lemma split_at {A} (l : list A) i s : nth_error l i = Some s ->
    l = firstn i l ++ s :: skipn (S i) l.
  Proof.
    revert i. induction l; intros [|i] H; try discriminate; simpl in *.
    - injection H as ->. reflexivity.
    - f_equal. apply IHl; auto.
  Qed.

  Lemma reverse_at (h : heap) (l : list hswath) i s :
    Forall (wfs (length h)) l -> nth_error l i = Some s ->
    exists l2, vec_set l i (fst (hs_reverse h s)) = Ok l2 /\
      addrs l2 = addrs l /\ Forall (wfs (length h)) l2 /\
      length (snd (hs_reverse h s)) = length h /\
      (forall b, ~ In b (sw_path s) -> deref (snd (hs_reverse h s)) b = deref h b) /\
      (NoDup (addrs l) ->
       vec_set (map (h_value h) l) i (swath_reverse (h_value h s))
       = Ok (map (h_value (snd (hs_reverse h s))) l2)).
  Proof.
    intros H E. destruct (reverse_local h s) as (A & B & C & D).
    { rewrite Forall_forall in H. apply H. eapply nth_error_In; eauto. }
    set (s' := fst (hs_reverse h s)) in *. set (h' := snd (hs_reverse h s)) in *.
    exists (firstn i l ++ s' :: skipn (S i) l). unfold vec_set at 1. rewrite E.
    assert (Ad : addrs (firstn i l ++ s' :: skipn (S i) l) = addrs l).
    { transitivity (addrs (firstn i l ++ s :: skipn (S i) l)); [|rewrite <- (split_at l i s E); reflexivity].
      rewrite !addrs_app. reflexivity. }
    split; [reflexivity|]. split; [exact Ad|].
    assert (H' := H). rewrite (split_at l i s E) in H'. apply Forall_app in H'. destruct H' as [H1 H2].
    inversion H2 as [|? ? H4 H5 HE]; subst. split.
    { apply Forall_app. split; [exact H1|]. constructor; [|exact H5].
      destruct H4 as (x & Ex & Lx). exists x. rewrite A. auto. }
    split; auto. split; auto.
    intro ND. rewrite <- D. 
    assert (ND' := ND). rewrite (split_at l i s E), addrs_app in ND'.
    assert (Dis : forall x, In x (sw_path s) -> In x (addrs (firstn i l)) \/ In x (addrs (skipn (S i) l)) -> False).
    { intros x Ix [I|I].
      - clear -ND' Ix I. induction (addrs (firstn i l)) as [|y t IH]; [destruct I|].
        cbn [app] in ND'. inversion ND'; subst. destruct I as [->|I]; [|auto].
        apply H1. apply in_or_app. right. unfold addrs. cbn [flat_map]. apply in_or_app. auto.
      - assert (ND2 : NoDup (addrs (s :: skipn (S i) l))).
        { clear -ND'. induction (addrs (firstn i l)); auto. inversion ND'; auto. }
        eapply notin_addrs; eauto. }
    unfold vec_set. rewrite nth_error_map, E. cbn [option_map]. f_equal.
    rewrite map_app. cbn [map]. rewrite firstn_map.
    change (match map (h_value h) l with [] => [] | _ :: l0 => skipn i l0 end) with (skipn (S i) (map (h_value h) l)).
    change (match l with [] => [] | _ :: l0 => skipn i l0 end) with (skipn (S i) l).
    rewrite skipn_map.
    f_equal; [|f_equal]; symmetry; apply values_ext; intros x Ix; apply C; intro J; eapply Dis; eauto.
  Qed.

  Lemma csp_ok (h : heap) (l : list hswath) v : Forall (wfs (length h)) l -> NoDup (addrs l) ->
    orel (fun r vv => length (snd r) = length h /\
            (forall b, ~ In b (addrs l) -> deref (snd r) b = deref h b) /\
            Permutation (addrs l) (addrs (fst r)) /\
            Forall (wfs (length h)) (fst r) /\
            map (h_value (snd r)) (fst r) = vv)
      (h_changeStartPoint h l v) (changeStartPoint (map (h_value h) l) v).
  Proof.
    intros H ND. unfold h_changeStartPoint, changeStartPoint.
    set (l1 := if N.testbit v 0 then swaths_reverse l else l).
    assert (E1 : (if N.testbit v 0 then swaths_reverse (map (h_value h) l) else map (h_value h) l)
                 = map (h_value h) l1).
    { unfold l1, swaths_reverse. destruct (N.testbit v 0); auto. rewrite map_rev. reflexivity. }
    rewrite E1.
    assert (PP : Permutation l l1).
    { unfold l1, swaths_reverse. destruct (N.testbit v 0); auto. apply Permutation_rev. }
    assert (H1 : Forall (wfs (length h)) l1) by (eapply Permutation_Forall; eauto).
    assert (ND1 : NoDup (addrs l1)).
    { eapply Permutation_NoDup; [|exact ND]. apply addrs_perm; auto. }
    destruct (N.testbit v 1).
    - rewrite vec_index_map. unfold vec_index. destruct (nth_error l1 0) as [s|] eqn:E; cbn [bind omap]; [|constructor].
      destruct (reverse_at h l1 0 s H1 E) as (l2 & A & B & C & D & F & G).
      destruct (hs_reverse h s) as [s' h'] eqn:Er. cbn [fst snd] in *. rewrite A. cbn [bind].
      rewrite (G ND1). constructor. cbn [fst snd]. repeat split; auto.
      + intros b N. apply F. intro I. apply N. eapply Permutation_in; [symmetry; apply addrs_perm; eauto|].
        unfold addrs. apply in_flat_map. exists s. split; auto. eapply nth_error_In; eauto.
      + rewrite B. apply addrs_perm; auto.
    - constructor. cbn [fst snd]. repeat split; auto. apply addrs_perm; auto.
  Qed.

  Lemma sortSwaths_perm k (l r : list hswath) : l <> [] ->
    sortSwaths w_zero k l = Ok r -> Permutation l r.
  Proof.
    intros N E. pose proof (sortSwaths_usable w_zero k l r N E) as U.
    destruct k as [| |n|o]; cbn [sortSwaths] in E.
    - injection E as <-. auto.
    - eapply snake_perm; eauto.
    - eapply spiral_perm; eauto.
    - destruct (sortSwaths_picks w_zero (Custom o) l N U) as (r' & E' & Pk). cbn [sortSwaths] in E'.
      rewrite E in E'. injection E' as <-. eapply picks_perm; [|exact Pk].
      exact U.
  Qed.

  (** Facts about what [fresh_from] gives. *)
  Definition fresh_result (h : heap) (r : list hswath * heap) : Prop :=
    length h <= length (snd r) /\
    (forall b, b < length h -> deref (snd r) b = deref h b) /\
    NoDup (addrs (fst r)) /\
    (forall a, In a (addrs (fst r)) -> length h <= a) /\
    Forall (wfs (length (snd r))) (fst r).

  Lemma fresh_from_result h l' h' : fresh_from h l' h' -> fresh_result h (l', h').
  Proof.
    intros ((t & Et) & Ea & El & Ew). unfold fresh_result. cbn [fst snd]. rewrite Ea. repeat split; auto.
    - lia.
    - intros b L. rewrite Et. apply deref_app; auto.
    - apply seq_NoDup.
    - intros a I. apply in_seq in I. lia.
  Qed.

  Lemma gen_ok k (h : heap) (l : list hswath) v : Forall (wfs (length h)) l ->
    orel (fun r vv => fresh_result h r /\ map (h_value (snd r)) (fst r) = vv)
      (h_genSortedSwaths w_nonpos w_zero p_default p_lt wkt sort_perm k h l v)
      (genSortedSwaths w_nonpos w_zero p_default p_lt wkt (sort_by_ids sort_perm) k
         (map (h_value h) l) v).
  Proof.
    intro H. unfold h_genSortedSwaths, genSortedSwaths.
    pose proof (clone_list w_nonpos w_zero wkt l h H) as CL.
    destruct CL as [p vv (Fr & Len & Hv)|e| |]; cbn [bind]; try constructor.
    destruct p as [c h0]. cbn [fst snd] in *. 
    pose proof (fresh_from_result _ _ _ Fr) as (F1 & F2 & F3 & F4 & F5). cbn [fst snd] in *.
    destruct c as [|c0 c'].
    { subst vv. cbn [map]. constructor. cbn [fst snd map]. split; auto. repeat split; auto. }
    remember (c0 :: c') as c eqn:Ec. subst vv.
    assert (EM : exists w0 w', map (h_value h0) c = w0 :: w') by (subst c; cbn [map]; eauto).
    destruct EM as (w0 & w' & EM). rewrite EM. rewrite <- EM. clear EM w0 w'.
    destruct (sort_ok sort_perm perm_ok p_default p_lt h0 c F5) as (S1 & S2 & S3 & S4 & S5).
    destruct (hss_sort p_default p_lt sort_perm h0 c) as [c1 h1]. cbn [fst snd] in *.
    rewrite <- (S5 F3).
    assert (W1 : Forall (wfs (length h1)) c1) by (rewrite S1; auto).
    assert (N1 : NoDup (addrs c1)) by (eapply Permutation_NoDup; eauto).
    pose proof (csp_ok h1 c1 v W1 N1) as CS.
    destruct CS as [q vv (Q1 & Q2 & Q3 & Q4 & Q5)|e| |]; cbn [bind]; try constructor.
    destruct q as [c2 h2]. cbn [fst snd] in *. subst vv.
    rewrite (sortSwaths_map (h_value h2) w_zero eq_refl).
    destruct (sortSwaths w_zero k c2) as [c3| | |] eqn:E3; cbn [bind omap]; try constructor.
    assert (NE : c2 <> []).
    { intro Z. subst c2. cbn in Q3. apply Permutation_sym, Permutation_nil in Q3.
      rewrite Q3 in S3. apply Permutation_sym, Permutation_nil in S3. subst c.
      inversion F5; subst. destruct H2 as (x & Ex & _). unfold addrs in S3. cbn [flat_map] in S3. rewrite Ex in S3. discriminate. }
    pose proof (sortSwaths_perm k c2 c3 NE E3) as P3.
    assert (W3 : Forall (wfs (length h2)) c3).
    { eapply Permutation_Forall; [exact P3|]. rewrite Q1; auto. }
    assert (N3 : NoDup (addrs c3)).
    { eapply Permutation_NoDup; [apply addrs_perm; exact P3|]. eapply Permutation_NoDup; eauto. }
    destruct (dirodd_ok c3 h2 W3) as (R1 & R2 & R3 & R4 & R5).
    destruct (hss_reverseDirOddSwaths h2 c3) as [c4 h4]. cbn [fst snd] in *.
    assert (A3 : forall x, In x (addrs c3) -> In x (addrs c)).
    { intros x I. eapply Permutation_in; [symmetry; exact S3|]. eapply Permutation_in; [symmetry; exact Q3|].
      eapply Permutation_in; [symmetry; apply addrs_perm; exact P3|]. auto. }
    split; [|auto]. unfold fresh_result. cbn [fst snd]. repeat split.
    - lia.
    - intros b L. rewrite R2, Q2, S2, F2; auto.
      + intro I. apply F4 in I. lia.
      + intro I. eapply Permutation_in in I; [|symmetry; exact S3]. apply F4 in I. lia.
      + intro I. apply A3 in I. apply F4 in I. lia.
    - eapply Permutation_NoDup; eauto.
    - intros a I. apply F4, A3. eapply Permutation_in; [symmetry; exact R3|]. auto.
    - rewrite R1. auto.
  Qed.
End Gen.
