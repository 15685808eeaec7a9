(** Proofs about the sharing of lines: the heap. *)
From Coq Require Import List Arith ZArith Bool Lia Permutation.
From Verif Require Import Outcome ListAux Swath_Model Swath_Proofs Swath_Proofs2
  Alias_Model Alias_Spec Alias_Proofs.
Import ListNotations.

Section Heap.
  Context {P W : Type}.
  Notation heap := (@heap P).
  Notation hswath := (swath nat W).

  Lemma length_store (h : heap) a l : length (store h a l) = length h.
  Proof.
    unfold store. rewrite app_length, firstn_length.
    destruct (skipn a h) eqn:E; simpl.
    - apply (f_equal (@length _)) in E. rewrite skipn_length in E. simpl in E. lia.
    - apply (f_equal (@length _)) in E. rewrite skipn_length in E. simpl in E. lia.
  Qed.

  Lemma deref_store_same (h : heap) a l : a < length h -> deref (store h a l) a = l.
  Proof.
    intro H. unfold deref, store. rewrite app_nth2; rewrite firstn_length_le by lia; [|lia].
    rewrite Nat.sub_diag. destruct (skipn a h) eqn:E; auto.
    apply (f_equal (@length _)) in E. rewrite skipn_length in E. simpl in E. lia.
  Qed.

  Lemma deref_store_other (h : heap) a b l : b <> a -> deref (store h a l) b = deref h b.
  Proof.
    intro N. unfold deref.
    destruct (lt_dec a (length h)) as [La|La].
    - unfold store. destruct (lt_dec b a) as [L|L].
      + rewrite app_nth1 by (rewrite firstn_length_le; lia).
        rewrite <- (firstn_skipn a h) at 2. rewrite app_nth1 by (rewrite firstn_length_le; lia). reflexivity.
      + rewrite <- (firstn_skipn a h) at 3.
        rewrite !app_nth2; rewrite firstn_length_le by lia; try lia.
        destruct (skipn a h); auto. destruct (b - a) eqn:E; [lia|]. reflexivity.
    - unfold store. rewrite skipn_all2 by lia. rewrite firstn_all2 by lia. rewrite app_nil_r. reflexivity.
  Qed.

  Lemma deref_app (h t : heap) a : a < length h -> deref (h ++ t) a = deref h a.
  Proof. intro H. unfold deref. apply app_nth1; auto. Qed.
  Lemma deref_app_new (h : heap) l t : deref (h ++ l :: t) (length h) = l.
  Proof. unfold deref. rewrite app_nth2 by lia. rewrite Nat.sub_diag. reflexivity. Qed.

  (** A swath that points into the heap. *)
  Definition wfs (n : nat) (s : hswath) : Prop := exists a, sw_path s = [a] /\ a < n.
  Definition addrs (l : list hswath) : list nat := flat_map sw_path l.

  Lemma addrs_app l l' : addrs (l ++ l') = addrs l ++ addrs l'.
  Proof. apply flat_map_app. Qed.
  Lemma addrs_perm l l' : Permutation l l' -> Permutation (addrs l) (addrs l').
  Proof. apply Permutation_flat_map. Qed.

  Lemma wfs_le n m s : n <= m -> wfs n s -> wfs m s.
  Proof. intros L (a & E & H). exists a. split; auto. lia. Qed.

  Lemma Forall_wfs_le n m l : n <= m -> Forall (wfs n) l -> Forall (wfs m) l.
  Proof. intros L. apply Forall_impl. intros s. apply wfs_le; auto. Qed.

  Lemma in_addrs l a : In a (addrs l) -> exists s, In s l /\ In a (sw_path s).
  Proof. intro H. apply in_flat_map in H. auto. Qed.

  Lemma addrs_lt n l a : Forall (wfs n) l -> In a (addrs l) -> a < n.
  Proof.
    intros H I. apply in_addrs in I. destruct I as (s & Is & Ia).
    rewrite Forall_forall in H. destruct (H s Is) as (b & E & L). rewrite E in Ia.
    destruct Ia as [<-|[]]. auto.
  Qed.

  (** Two heaps that agree on the addresses of [l]. *)
  Lemma value_ext (h h' : heap) (s : hswath) :
    (forall a, In a (sw_path s) -> deref h' a = deref h a) -> h_value h' s = h_value h s.
  Proof.
    intro H. unfold h_value, h_path. destruct (sw_path s); auto. rewrite H by (left; auto). reflexivity.
  Qed.
  Lemma values_ext (h h' : heap) (l : list hswath) :
    (forall a, In a (addrs l) -> deref h' a = deref h a) ->
    map (h_value h') l = map (h_value h) l.
  Proof.
    intro H. apply map_ext_in. intros s I. apply value_ext. intros a Ia. apply H.
    apply in_flat_map. eauto.
  Qed.

  (** ** Reversing *)
  Lemma reverse_facts (h : heap) (s : hswath) : wfs (length h) s ->
    sw_path (fst (hs_reverse h s)) = sw_path s /\
    length (snd (hs_reverse h s)) = length h /\
    (forall b, ~ In b (sw_path s) -> deref (snd (hs_reverse h s)) b = deref h b) /\
    h_value (snd (hs_reverse h s)) (fst (hs_reverse h s)) = swath_reverse (h_value h s) /\
    deref (snd (hs_reverse h s)) (hd 0 (sw_path s)) = rev (deref h (hd 0 (sw_path s))).
  Proof.
    intros (a & E & L). unfold hs_reverse, h_write, h_value, h_path, swath_reverse, swath_setCreationDir.
    cbn [fst snd sw_path sw_id sw_width sw_dir sw_type]. rewrite E. cbn [hd]. repeat split; auto.
    - apply length_store.
    - intros b N. apply deref_store_other. intro; subst; apply N; left; auto.
    - rewrite deref_store_same by auto. reflexivity.
    - rewrite deref_store_same by auto. reflexivity.
  Qed.

  (** A step on one swath that stays within its line. *)
  Definition local (g : heap -> hswath -> hswath * heap) (G : swath P W -> swath P W) : Prop :=
    forall h s, wfs (length h) s ->
    sw_path (fst (g h s)) = sw_path s /\
    length (snd (g h s)) = length h /\
    (forall b, ~ In b (sw_path s) -> deref (snd (g h s)) b = deref h b) /\
    h_value (snd (g h s)) (fst (g h s)) = G (h_value h s).

  Lemma reverse_local : local hs_reverse swath_reverse.
  Proof. intros h s H. destruct (reverse_facts h s H) as (A & B & C & D & _). auto. Qed.

  Lemma orient_local p_default p_lt : local (hs_orient p_default p_lt) (swath_orient p_default p_lt).
  Proof.
    intros h s H. unfold hs_orient, swath_orient.
    destruct (p_lt _ _); [apply reverse_local; auto|]. cbn [fst snd]. auto.
  Qed.

  Lemma target_local (t : hswath) (t' : swath P W) : sw_dir t' = sw_dir t ->
    local (fun h s => hs_targetOppositeDirAs h s t) (fun s => swath_targetOppositeDirAs s t').
  Proof.
    intros Hd h s H. unfold hs_targetOppositeDirAs, swath_targetOppositeDirAs, swath_hasSameDir.
    rewrite Hd. cbn [h_value sw_dir]. destruct (Bool.eqb _ _); [apply reverse_local; auto|].
    cbn [fst snd]. auto.
  Qed.

  (** What a loop over a container keeps and does. *)
  Definition loop_ok (h : heap) (l : list hswath) (r : list hswath * heap)
      (v : list (swath P W)) : Prop :=
    length (snd r) = length h /\
    (forall b, ~ In b (addrs l) -> deref (snd r) b = deref h b) /\
    Permutation (addrs l) (addrs (fst r)) /\
    Forall (wfs (length h)) (fst r) /\
    (NoDup (addrs l) -> map (h_value (snd r)) (fst r) = v).

  Lemma notin_addrs (s : hswath) l a :
    NoDup (addrs (s :: l)) -> In a (addrs l) -> ~ In a (sw_path s).
  Proof.
    unfold addrs. cbn [flat_map]. fold (addrs l). intros H I J.
    induction (sw_path s) as [|x t IH]; [destruct J|].
    cbn [app] in H. inversion H; subst. destruct J as [->|J].
    - apply H2. apply in_or_app. auto.
    - apply IH; auto.
  Qed.
  Lemma nodup_tail (s : hswath) l : NoDup (addrs (s :: l)) -> NoDup (addrs l).
  Proof.
    unfold addrs. cbn [flat_map]. induction (sw_path s); simpl; auto. intro H. inversion H; auto.
  Qed.

  Lemma orient_loop p_default p_lt : forall l h, Forall (wfs (length h)) l ->
    addrs (fst (hss_orient p_default p_lt h l)) = addrs l /\
    loop_ok h l (hss_orient p_default p_lt h l)
      (map (swath_orient p_default p_lt) (map (h_value h) l)).
  Proof.
    induction l; intros h H; cbn [hss_orient].
    - split; auto. repeat split; auto.
    - inversion H; subst.
      destruct (orient_local p_default p_lt h a H2) as (A & B & C & D).
      destruct (hs_orient p_default p_lt h a) as [s' h'] eqn:E. cbn [fst snd] in *.
      destruct (IHl h') as (Ad & L1 & L2 & L3 & L4 & L5).
      { rewrite B; auto. }
      destruct (hss_orient p_default p_lt h' l) as [l' h''] eqn:E'. cbn [fst snd] in *.
      assert (Ad' : addrs (s' :: l') = addrs (a :: l)).
      { unfold addrs in *. cbn [flat_map]. rewrite A, Ad. reflexivity. }
      split; [exact Ad'|]. unfold loop_ok. cbn [fst snd]. repeat split.
      + congruence.
      + intros b N. rewrite L2, C; auto.
        * intro I. apply N. unfold addrs. cbn [flat_map]. apply in_or_app. auto.
        * intro I. apply N. unfold addrs. cbn [flat_map]. apply in_or_app. auto.
      + rewrite Ad'. reflexivity.
      + constructor; [|rewrite <- B; auto]. destruct H2 as (x & Ex & Lx). exists x. rewrite A; auto.
      + intro ND. cbn [map]. f_equal.
        * rewrite <- D. apply value_ext. intros x Ix. rewrite A in Ix.
          apply L2. intro I. eapply notin_addrs; eauto.
        * rewrite (L5 (nodup_tail _ _ ND)). f_equal. apply values_ext. intros x Ix. apply C.
          eapply notin_addrs; eauto.
  Qed.

  Lemma dirodd_loop : forall l h prev prev', Forall (wfs (length h)) l ->
    sw_dir prev' = sw_dir prev ->
    addrs (fst (hss_reverseDirOdd_from h prev l)) = addrs l /\
    loop_ok h l (hss_reverseDirOdd_from h prev l)
      (reverseDirOdd_from prev' (map (h_value h) l)).
  Proof.
    induction l; intros h prev prev' H Hd; cbn [hss_reverseDirOdd_from].
    - split; auto. repeat split; auto.
    - inversion H; subst.
      destruct (target_local prev prev' Hd h a H2) as (A & B & C & D).
      destruct (hs_targetOppositeDirAs h a prev) as [s' h'] eqn:E. cbn [fst snd] in *.
      destruct (IHl h' s' (swath_targetOppositeDirAs (h_value h a) prev')) as (Ad & L1 & L2 & L3 & L4 & L5).
      { rewrite B; auto. }
      { rewrite <- D. reflexivity. }
      destruct (hss_reverseDirOdd_from h' s' l) as [l' h''] eqn:E'. cbn [fst snd] in *.
      assert (Ad' : addrs (s' :: l') = addrs (a :: l)).
      { unfold addrs in *. cbn [flat_map]. rewrite A, Ad. reflexivity. }
      split; [exact Ad'|]. unfold loop_ok. cbn [fst snd]. repeat split.
      + congruence.
      + intros b N. rewrite L2, C; auto.
        * intro I. apply N. unfold addrs. cbn [flat_map]. apply in_or_app. auto.
        * intro I. apply N. unfold addrs. cbn [flat_map]. apply in_or_app. auto.
      + rewrite Ad'. reflexivity.
      + constructor; [|rewrite <- B; auto]. destruct H2 as (x & Ex & Lx). exists x. rewrite A; auto.
      + intro ND. cbn [map reverseDirOdd_from]. f_equal.
        * rewrite <- D. apply value_ext. intros x Ix. rewrite A in Ix.
          apply L2. intro I. eapply notin_addrs; eauto.
        * rewrite (L5 (nodup_tail _ _ ND)). f_equal. apply values_ext. intros x Ix. apply C.
          eapply notin_addrs; eauto.
  Qed.

  Lemma dirodd_ok : forall l h, Forall (wfs (length h)) l ->
    loop_ok h l (hss_reverseDirOddSwaths h l)
      (swaths_reverseDirOddSwaths (map (h_value h) l)).
  Proof.
    intros [|s l] h H; unfold hss_reverseDirOddSwaths.
    - repeat split; auto.
    - inversion H; subst. destruct (dirodd_loop l h s (h_value h s) H3 eq_refl) as (Ad & L1 & L2 & L3 & L4 & L5).
      destruct (hss_reverseDirOdd_from h s l) as [l' h'] eqn:E. cbn [fst snd] in *.
      unfold loop_ok. cbn [fst snd]. repeat split; auto.
      + intros b N. apply L2. intro I. apply N. unfold addrs. cbn [flat_map]. apply in_or_app; auto.
      + unfold addrs in *. cbn [flat_map]. apply Permutation_app_head. exact L3.
      + intro ND. cbn [map swaths_reverseDirOddSwaths]. f_equal.
        * apply value_ext. intros x Ix. apply L2. intro I. eapply notin_addrs; eauto.
        * apply L5. eapply nodup_tail; eauto.
  Qed.

  (** ** Sorting *)
  Section Sort.
    Variable sort_perm : list Z -> list nat.
    Hypothesis perm_ok : forall ids, Permutation (sort_perm ids) (seq 0 (length ids)).

    Lemma sort_by_ids_map {Q R : Type} (F : swath Q W -> swath R W) l :
      (forall s, sw_id (F s) = sw_id s) ->
      sort_by_ids sort_perm (map F l) = map F (sort_by_ids sort_perm l).
    Proof.
      intro HF. unfold sort_by_ids. rewrite map_map, (map_ext _ _ HF).
      induction (sort_perm _) as [|i t IH]; auto. cbn [flat_map]. rewrite map_app, IH, nth_error_map.
      destruct (nth_error l i); reflexivity.
    Qed.

    Lemma picks_all {Q : Type} (l : list Q) :
      flat_map (fun i => match nth_error l i with Some s => [s] | None => [] end) (seq 0 (length l)) = l.
    Proof.
      assert (G : forall pre, flat_map (fun i => match nth_error (pre ++ l) i with Some s => [s] | None => [] end)
                    (seq (length pre) (length l)) = l).
      { induction l; intro pre; auto. cbn [length seq flat_map].
        rewrite nth_error_app2 by lia. rewrite Nat.sub_diag. cbn [nth_error app]. f_equal.
        specialize (IHl (pre ++ [a])). rewrite <- app_assoc, app_length in IHl. cbn [length app] in IHl.
        rewrite Nat.add_1_r in IHl. exact IHl. }
      exact (G []).
    Qed.

    Lemma sort_by_ids_perm {Q : Type} (l : list (swath Q W)) :
      Permutation l (sort_by_ids sort_perm l).
    Proof.
      unfold sort_by_ids. rewrite <- (picks_all l) at 1. apply Permutation_flat_map.
      symmetry. rewrite <- (map_length sw_id l). apply perm_ok.
    Qed.

    Lemma sort_ok p_default p_lt h l : Forall (wfs (length h)) l ->
      loop_ok h l (hss_sort p_default p_lt sort_perm h l)
        (swaths_sort p_default p_lt (sort_by_ids sort_perm) (map (h_value h) l)).
    Proof.
      intro H. unfold hss_sort, swaths_sort.
      destruct (orient_loop p_default p_lt l h H) as (Ad & L1 & L2 & L3 & L4 & L5).
      destruct (hss_orient p_default p_lt h l) as [l' h']. cbn [fst snd] in *.
      unfold loop_ok; cbn [fst snd]. repeat split; auto.
      - rewrite L3. apply addrs_perm. apply sort_by_ids_perm.
      - eapply Permutation_Forall; [apply sort_by_ids_perm|auto].
      - intro ND. rewrite <- (L5 ND). symmetry. apply sort_by_ids_map. reflexivity.
    Qed.
  End Sort.

  (** ** Moving *)
  Section Move.
    Variable move_points : P -> list P -> outcome (list P).

    Definition pure_move (r : P) (s : swath P W) : outcome (swath P W) :=
      do p <- move_points r (sw_path s); Ok (swath_setPath s p).

    Lemma move_facts h r s h' : wfs (length h) s -> hs_moveTo move_points h r s = Ok h' ->
      length h' = length h /\
      (forall b, ~ In b (sw_path s) -> deref h' b = deref h b) /\
      pure_move r (h_value h s) = Ok (h_value h' s).
    Proof.
      intros (a & E & L). unfold hs_moveTo, pure_move, h_write, h_value, h_path, swath_setPath.
      cbn [sw_path sw_id sw_width sw_dir sw_type]. rewrite E.
      destruct (move_points r (deref h a)); simpl; try discriminate. intro H; injection H as <-. repeat split.
      - apply length_store.
      - intros b N. apply deref_store_other. intro; subst; apply N; left; auto.
      - rewrite deref_store_same by auto. reflexivity.
    Qed.

    Lemma move_loop r : forall l h h', Forall (wfs (length h)) l ->
      hss_moveTo move_points h r l = Ok h' ->
      length h' = length h /\ (forall b, ~ In b (addrs l) -> deref h' b = deref h b).
    Proof.
      unfold hss_moveTo. induction l; intros h h' H; cbn [foldM].
      - intro E; injection E as <-. auto.
      - inversion H; subst. destruct (hs_moveTo move_points h r a) eqn:E; cbn [bind]; try discriminate.
        destruct (move_facts _ _ _ _ H2 E) as (A & B & _). intro E'.
        destruct (IHl a0 h') as (C & D); auto. { rewrite A; auto. }
        split; [congruence|]. intros b N. rewrite D, B; auto.
        + intro I. apply N. unfold addrs. cbn [flat_map]. apply in_or_app. auto.
        + intro I. apply N. unfold addrs. cbn [flat_map]. apply in_or_app. auto.
    Qed.

    Lemma move_values r : forall l h, Forall (wfs (length h)) l -> NoDup (addrs l) ->
      orel (fun h' v => map (h_value h') l = v) (hss_moveTo move_points h r l)
        (mapM (pure_move r) (map (h_value h) l)).
    Proof.
      unfold hss_moveTo. induction l; intros h H ND; cbn [foldM map mapM].
      - constructor. reflexivity.
      - inversion H; subst. destruct (hs_moveTo move_points h r a) eqn:E; cbn [bind].
        + destruct (move_facts _ _ _ _ H2 E) as (A & B & C). rewrite C. cbn [bind].
          assert (Hl : Forall (wfs (length a0)) l) by (rewrite A; auto).
          specialize (IHl a0 Hl (nodup_tail _ _ ND)).
          assert (EV : map (h_value a0) l = map (h_value h) l).
          { apply values_ext. intros x Ix. apply B. eapply notin_addrs; eauto. }
          rewrite EV in IHl.
          destruct (foldM (fun (h0 : heap) (s : hswath) => hs_moveTo move_points h0 r s) l a0) eqn:E1;
            inversion IHl; subst; cbn [bind]; try constructor.
          f_equal. apply value_ext. intros x Ix.
          destruct (move_loop r l a0 a1 Hl E1) as (_ & D). apply D. intro I. eapply notin_addrs; eauto.
        + unfold hs_moveTo in E. unfold pure_move. change (sw_path (h_value h a)) with (h_path h a).
          destruct (move_points r (h_path h a)); cbn [bind] in *; try discriminate. injection E as ->. constructor.
        + unfold hs_moveTo in E. unfold pure_move. change (sw_path (h_value h a)) with (h_path h a).
          destruct (move_points r (h_path h a)); cbn [bind] in *; try discriminate. constructor.
        + unfold hs_moveTo in E. unfold pure_move. change (sw_path (h_value h a)) with (h_path h a).
          destruct (move_points r (h_path h a)); cbn [bind] in *; try discriminate. constructor.
    Qed.
  End Move.

  (** ** Cloning *)
  Section Clone.
    Variable w_nonpos : W -> bool.
    Variable w_zero : W.
    Variable wkt : P -> P.

    Definition fresh_from (h : heap) (l' : list hswath) (h' : heap) : Prop :=
      (exists t, h' = h ++ t) /\
      addrs l' = seq (length h) (length l') /\
      length h' = length h + length l' /\ Forall (wfs (length h')) l'.

    Lemma clone_one h s : 
      orel (fun r v => fresh_from h [fst r] (snd r) /\ h_value (snd r) (fst r) = v)
        (hs_clone w_nonpos w_zero wkt h s) (swath_clone w_nonpos w_zero wkt (h_value h s)).
    Proof.
      unfold hs_clone, swath_clone, h_new_line, hs_new, swath_new, swath_setWidth, h_value.
      cbn [sw_path sw_id sw_width sw_dir sw_type].
      destruct (w_nonpos (sw_width s)); cbn [bind]; constructor.
      unfold swath_setCreationDir, fresh_from, h_path. cbn [fst snd sw_path sw_id sw_width sw_dir sw_type].
      split.
      - split; [eauto|]. split; [reflexivity|]. rewrite app_length. cbn [length]. split; auto.
        constructor; auto. exists (length h). split; auto. lia.
      - rewrite deref_app_new. reflexivity.
    Qed.

    Lemma clone_list : forall l h, Forall (wfs (length h)) l ->
      orel (fun r v => fresh_from h (fst r) (snd r) /\ length (fst r) = length l /\ map (h_value (snd r)) (fst r) = v)
        (hss_clone w_nonpos w_zero wkt h l) (swaths_clone w_nonpos w_zero wkt (map (h_value h) l)).
    Proof.
      unfold swaths_clone. induction l; intros h H; cbn [hss_clone map mapM].
      - constructor. cbn [fst snd length map]. repeat split; auto. exists []. rewrite app_nil_r; auto.
      - inversion H; subst. pose proof (clone_one h a) as C.
        destruct C as [p v H0|e| |]; cbn [bind]; try constructor.
        destruct H0 as [[(t & Et) (Ea & El & Ew)] Hv]. 
        assert (Hl : Forall (wfs (length (snd p))) l).
        { eapply Forall_wfs_le; [|eauto]. lia. }
        specialize (IHl _ Hl).
        assert (EV : map (h_value (snd p)) l = map (h_value h) l).
        { apply values_ext. intros x Ix. rewrite Et. apply deref_app. eapply addrs_lt; eauto. }
        rewrite EV in IHl. destruct IHl as [q r H0|e| |]; cbn [bind]; constructor.
        destruct H0 as (((t' & Et') & Ea' & El' & Ew') & Hlen & Hv'). cbn [fst snd].
        repeat split.
        + exists (t ++ t'). rewrite Et', Et, app_assoc. reflexivity.
        + unfold addrs in *. cbn [flat_map length seq]. cbn [flat_map] in Ea. rewrite app_nil_r in Ea. rewrite Ea, Ea'.
          cbn [length seq app]. f_equal. f_equal. rewrite El. cbn [length]. lia.
        + cbn [length] in *. lia.
        + constructor; auto. inversion Ew; subst. eapply wfs_le; [|eauto]. lia.
        + cbn [length]. lia.
        + cbn [map]. f_equal; auto. rewrite <- Hv. apply value_ext. intros x Ix.
          rewrite Et'. apply deref_app. inversion Ew; subst. destruct H4 as (y & Ey & Ly).
          rewrite Ey in Ix. destruct Ix as [<-|[]]. auto.
    Qed.
  End Clone.
End Heap.
