(** Proofs about the sharing of lines: groups of variables, and the exact effect
    of a change to a shared line. *)
From Coq Require Import List Arith ZArith Bool Lia Permutation.
From Verif Require Import Outcome ListAux Swath_Model Swath_Proofs Swath_Proofs2
  Alias_Model Alias_Spec Alias_Proofs Alias_Proofs2 Alias_Proofs3 Alias_Proofs4 Alias_Proofs5 Alias_Proofs6.
Import ListNotations.
Local Arguments addrs : simpl never.
Local Arguments deref : simpl never.

Section Groups.
  Context {P W : Type}.
  Variable w_nonpos : W -> bool.
  Variable w_zero : W.
  Variable p_default : P.
  Variable p_lt : P -> P -> bool.
  Variable wkt : P -> P.
  Variable sort_perm : list Z -> list nat.
  Variable move_points : P -> list P -> outcome (list P).
  Hypothesis perm_ok : forall ids, Permutation (sort_perm ids) (seq 0 (length ids)).
  Notation heap := (@heap P).
  Notation hswath := (swath nat W).
  Notation state := (@state P W).
  Notation op := (@op P W).
  Notation step := (step w_nonpos w_zero p_default p_lt wkt sort_perm move_points).
  Notation run := (run w_nonpos w_zero p_default p_lt wkt sort_perm move_points).

  (** The variable of a place. *)
  Definition var_of (p : place) : nat + nat :=
    match p with InLine x => inl x | InSwaths c _ => inr c end.

  Lemma anew_holds st st' (o : op) : well_formed st -> makes_anew o -> step st o = Ok st' ->
    exists v, forall p a, holds st' p a ->
      (length (st_heap st) <= a /\ var_of p = v) \/ holds st p a.
  Proof.
    intros Wf M. assert (WC := fun c => wf_forall st c Wf).
    destruct o; try contradiction; cbn [Alias_Model.step h_new_line h_clone_line]; intro E.
    - unfold get_line in E. destruct (st_line st x) as [a|] eqn:Ex; cbn in E; [|discriminate].
      injection E as <-. exists (inl y). intros [z|c i] b H; cbn in *; auto.
      apply set_line_eq in H. destruct H as [[-> ->]|[N H]]; auto.
    - pose proof (clone_list w_nonpos w_zero wkt (st_cont st c) (st_heap st) (WC c)) as CL.
      destruct (hss_clone w_nonpos w_zero wkt (st_heap st) (st_cont st c)) as [[l' h']| | |]; cbn [bind] in E; try discriminate.
      injection E as <-. inversion CL as [r0 v0 [Fr _] E0 E1| | |]; subst. cbn [fst snd] in Fr.
      apply fresh_from_result in Fr. destruct Fr as (F1 & F2 & F3 & F4 & F5). cbn [fst snd] in *.
      exists (inr d). intros [z|e i] b H; cbn in *; auto.
      destruct H as (s & Es & Ps). unfold set in Es. destruct (Nat.eqb_spec e d).
      + left. subst. split; auto. apply F4. apply in_flat_map. exists s.
        split; [eapply nth_error_In; eauto|rewrite Ps; left; auto].
      + right. eauto.
    - pose proof (gen_ok w_nonpos w_zero p_default p_lt wkt sort_perm perm_ok k (st_heap st) (st_cont st c) v (WC c)) as G.
      destruct (h_genSortedSwaths _ _ _ _ _ _ k (st_heap st) (st_cont st c) v) as [[l' h']| | |];
        cbn [bind] in E; try discriminate.
      injection E as <-. inversion G as [r0 v0 [Fr _] E0 E1| | |]; subst.
      destruct Fr as (F1 & F2 & F3 & F4 & F5). cbn [fst snd] in *.
      exists (inr d). intros [z|e i] b H; cbn in *; auto.
      destruct H as (s & Es & Ps). unfold set in Es. destruct (Nat.eqb_spec e d).
      + left. subst. split; auto. apply F4. apply in_flat_map. exists s.
        split; [eapply nth_error_In; eauto|rewrite Ps; left; auto].
      + right. eauto.
  Qed.

  Lemma holds_lt (st : state) p a : well_formed st -> holds st p a -> a < length (st_heap st).
  Proof.
    intros Wf H. destruct p as [x|c i]; cbn in H.
    - apply (proj1 Wf x a H).
    - destruct H as (s & E & Ps). destruct (proj2 Wf c s) as (b & Eb & L); [eapply nth_error_In; eauto|].
      rewrite Ps in Eb. injection Eb as ->. auto.
  Qed.

  Lemma anew_apart gl gc st st' (o : op) : well_formed st -> makes_anew o -> apart gl gc st ->
    step st o = Ok st' -> apart gl gc st'.
  Proof.
    intros Wf M Ap E p q a Gp Gq Hp Hq.
    destruct (anew_holds _ _ _ Wf M E) as (v & H).
    destruct (H p a Hp) as [[L Vp]|Hp']; destruct (H q a Hq) as [[L' Vq]|Hq'].
    - apply Gq. destruct p, q; cbn in *; congruence.
    - pose proof (holds_lt st q a Wf Hq'). lia.
    - pose proof (holds_lt st p a Wf Hp'). lia.
    - eapply Ap; eauto.
  Qed.

  Definition isT (f : nat -> bool) (x : nat) : Prop := f x = true.
  Definition isF (f : nat -> bool) (x : nat) : Prop := f x = false.

  Lemma apart_swap gl gc (st : state) : apart (isT gl) (isT gc) st <-> apart (isF gl) (isF gc) st.
  Proof.
    clear perm_ok w_nonpos w_zero p_default p_lt wkt sort_perm move_points.
    assert (A : forall p, in_group (isT gl) (isT gc) p <-> ~ in_group (isF gl) (isF gc) p).
    { intros [x|c i]; cbn; unfold isT, isF; [destruct (gl x)|destruct (gc c)]; intuition discriminate. }
    assert (B : forall p, in_group (isF gl) (isF gc) p <-> ~ in_group (isT gl) (isT gc) p).
    { intros [x|c i]; cbn; unfold isT, isF; [destruct (gl x)|destruct (gc c)]; intuition discriminate. }
    split; intros Ap p q a Gp Gq Hp Hq.
    - apply (Ap q p a); auto; [apply A; auto|apply B; auto].
    - apply (Ap q p a); auto; [apply B; auto|apply A; auto].
  Qed.

  Lemma groups_run gl gc : forall ops st st', well_formed st ->
    Forall (fun o => within (isT gl) (isT gc) o \/ within (isF gl) (isF gc) o \/ makes_anew o) ops ->
    apart (isT gl) (isT gc) st -> run ops st = Ok st' ->
    apart (isT gl) (isT gc) st'.
  Proof.
    unfold Alias_Model.run. induction ops; intros st st' Wf F Ap; cbn [foldM].
    - intro E; injection E as <-; auto.
    - inversion F; subst. destruct (step st a) as [s1| | |] eqn:E; cbn [bind]; try discriminate. intro R.
      eapply IHops; [|exact H2| |exact R]; [eapply step_wf; eauto|].
      destruct H1 as [H|[H|H]].
      + eapply (step_apart w_nonpos w_zero p_default p_lt wkt sort_perm move_points perm_ok); eauto.
      + apply apart_swap. apply apart_swap in Ap.
        eapply (step_apart w_nonpos w_zero p_default p_lt wkt sort_perm move_points perm_ok); eauto.
      + eapply anew_apart; eauto.
  Qed.

  (** What a change in place of one swath does to every other. *)
  Lemma reverse_effect st st' c i s a : well_formed st ->
    nth_error (st_cont st c) i = Some s -> sw_path s = [a] ->
    step st (ReverseSwath c i) = Ok st' ->
    nth_error (v_cont (views st') c) i = Some (swath_reverse (h_value (st_heap st) s)) /\
    (forall d j t, (d, j) <> (c, i) -> nth_error (st_cont st d) j = Some t ->
       nth_error (v_cont (views st') d) j =
       Some (if list_eq_dec Nat.eq_dec (sw_path t) [a]
             then swath_setPath (h_value (st_heap st) t) (rev (h_path (st_heap st) t))
             else h_value (st_heap st) t)) /\
    (forall x b, st_line st x = Some b ->
       v_line (views st') x = Some (if Nat.eq_dec b a then rev (deref (st_heap st) b) else deref (st_heap st) b)).
  Proof.
    intros Wf Es Ps. cbn [Alias_Model.step]. unfold vec_at. rewrite Es. cbn [bind].
    assert (WS : wfs (length (st_heap st)) s).
    { destruct (proj2 Wf c s) as (b & Eb & Lb); [eapply nth_error_In; eauto|]. exists b; auto. }
    destruct (reverse_facts (st_heap st) s WS) as (R1 & R2 & R3 & R4 & R5).
    destruct (hs_reverse (st_heap st) s) as [s' h'] eqn:Er. cbn [fst snd] in *.
    unfold vec_set. rewrite Es. cbn [bind]. intro E; injection E as <-. rewrite Ps in *. cbn [hd] in R5.
    assert (Li : i < length (st_cont st c)) by (apply nth_error_Some; congruence).
    assert (FL : length (firstn i (st_cont st c)) = i) by (apply firstn_length_le; lia).
    cbn [views v_cont v_line st_cont st_heap st_line]. split; [|split].
    - rewrite set_same, nth_error_map, nth_error_app2 by lia. rewrite FL, Nat.sub_diag. cbn.
      rewrite R4. reflexivity.
    - intros d j t N Et.
      assert (HV : h_value h' t = (if list_eq_dec Nat.eq_dec (sw_path t) [a]
             then swath_setPath (h_value (st_heap st) t) (rev (h_path (st_heap st) t))
             else h_value (st_heap st) t)).
      { destruct (proj2 Wf d t) as (b & Eb & Lb); [eapply nth_error_In; eauto|].
        destruct (list_eq_dec Nat.eq_dec (sw_path t) [a]) as [Q|Q].
        - unfold h_value, swath_setPath, h_path. cbn. rewrite Q, R5. reflexivity.
        - apply value_ext. intros z Iz. apply R3. intros [<-|[]]. rewrite Eb in *.
          destruct Iz as [<-|[]]. congruence. }
      rewrite <- HV, nth_error_map. unfold set. destruct (Nat.eqb_spec d c) as [->|Nd].
      + assert (Nj : j <> i) by congruence.
        assert (EE : nth_error (firstn i (st_cont st c) ++ s' :: skipn (S i) (st_cont st c)) j = Some t).
        { destruct (lt_dec j i).
          - rewrite nth_error_app1 by lia. rewrite nth_error_firstn_lt by auto. auto.
          - rewrite nth_error_app2 by lia. rewrite FL. destruct (j - i) as [|m] eqn:Em; [lia|].
            cbn [nth_error]. rewrite nth_error_skipn'. replace (S i + m) with j by lia. auto. }
        change (match st_cont st c with [] => [] | _ :: l => skipn i l end) with (skipn (S i) (st_cont st c)).
        rewrite EE. reflexivity.
      + rewrite Et. reflexivity.
    - intros x b Ex. rewrite Ex. cbn. destruct (Nat.eq_dec b a) as [->|N].
      + rewrite R5. reflexivity.
      + rewrite R3; auto. intros [<-|[]]. congruence.
  Qed.

  (** Moving a container, with any sharing. *)
  Lemma move_count (g : list P -> list P) r : (forall x, move_points r x = Ok (g x)) ->
    forall (l : list hswath) (h : heap), Forall (wfs (length h)) l ->
    exists h', hss_moveTo move_points h r l = Ok h' /\ length h' = length h /\
      forall a, a < length h ->
        deref h' a = Nat.iter (count_occ Nat.eq_dec (addrs l) a) g (deref h a).
  Proof.
    intro Hg. unfold hss_moveTo. induction l; intros h H; cbn [foldM].
    - exists h. repeat split; auto.
    - inversion H; subst. destruct H2 as (x & Ex & Lx).
      unfold hs_moveTo at 1. rewrite Hg. cbn [bind]. unfold h_write, h_path. rewrite Ex.
      destruct (IHl (store h x (g (deref h x)))) as (h' & E & L & D).
      { rewrite length_store. auto. }
      exists h'. rewrite length_store in L, D. split; auto. split; auto. intros b Lb. rewrite D by auto.
      unfold addrs. cbn [flat_map]. rewrite Ex. cbn [app count_occ]. destruct (Nat.eq_dec x b) as [->|N].
      + rewrite deref_store_same by auto. generalize (count_occ Nat.eq_dec (flat_map sw_path l) b).
        intro n. assert (G : forall z, Nat.iter n g (g z) = g (Nat.iter n g z)).
        { clear. induction n; intro z; [reflexivity|].
          change (g (Nat.iter n g (g z)) = g (g (Nat.iter n g z))). rewrite IHn. reflexivity. }
        rewrite G. reflexivity.
      + rewrite deref_store_other by auto. reflexivity.
  Qed.

  Lemma cells_clone_ok : forall (d : list (list hswath)) (h : heap), Forall (Forall (wfs (length h))) d ->
    orel (fun r v => (exists t, snd r = h ++ t) /\ addrs (concat (fst r)) = seq (length h) (length (concat d)) /\
             length (snd r) = length h + length (concat d) /\
             Forall (Forall (wfs (length (snd r)))) (fst r) /\
             map (map (h_value (snd r))) (fst r) = v)
      (hsbc_clone w_nonpos w_zero wkt h d)
      (sbc_clone w_nonpos w_zero wkt (map (map (h_value h)) d)).
  Proof.
    unfold sbc_clone. induction d; intros h H; cbn [hsbc_clone map mapM].
    - constructor. cbn. repeat split; auto. exists []. rewrite app_nil_r; auto.
    - inversion H; subst.
      pose proof (clone_list w_nonpos w_zero wkt a h H2) as CL.
      destruct CL as [p v (((t & Et) & Ea & El & Ew) & Len & Hv)|e| |]; cbn [bind]; try constructor.
      assert (Hd : Forall (Forall (wfs (length (snd p)))) d).
      { eapply Forall_impl; [|exact H3]. intros l. apply Forall_wfs_le. lia. }
      specialize (IHd _ Hd).
      assert (EV : map (map (h_value (snd p))) d = map (map (h_value h)) d).
      { apply map_ext_in. intros l Il. apply values_ext. intros x Ix. rewrite Et. apply deref_app.
        rewrite Forall_forall in H3. eapply addrs_lt; [apply H3; exact Il|exact Ix]. }
      rewrite EV in IHd. destruct IHd as [q r ((t' & Et') & Ea' & El' & Ew' & Hv')|e| |]; cbn [bind]; constructor.
      cbn [fst snd concat]. rewrite app_length. unfold Alias_Model.heap in *. repeat split.
      + exists (t ++ t'). refine (eq_trans Et' (eq_trans (f_equal (fun z => z ++ t') Et) _)). symmetry. apply app_assoc.
      + rewrite addrs_app, Ea, Ea', El, Len, <- seq_app. reflexivity.
      + lia.
      + constructor; auto. eapply Forall_wfs_le; [|exact Ew]. lia.
      + cbn [map]. f_equal; auto. rewrite <- Hv. apply values_ext. intros x Ix. refine (eq_trans (f_equal (fun z => deref z x) Et') _). apply deref_app.
        eapply addrs_lt; eauto.
  Qed.
End Groups.
