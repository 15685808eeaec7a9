(** Proofs about the sharing of lines: programs. *)
From Coq Require Import List Arith ZArith Bool Lia Permutation.
From Verif Require Import Outcome ListAux Swath_Model Swath_Proofs Swath_Proofs2
  Alias_Model Alias_Spec Alias_Proofs Alias_Proofs2 Alias_Proofs3.
Import ListNotations.

Section Prog.
  Context {P W : Type}.
  Variable w_nonpos : W -> bool.
  Variable w_zero : W.
  Variable p_default : P.
  Variable p_lt : P -> P -> bool.
  Variable wkt : P -> P.
  Variable sort_perm : list Z -> list nat.
  Variable move_points : P -> list P -> outcome (list P).
  Hypothesis perm_ok : forall ids, Permutation (sort_perm ids) (seq 0 (length ids)).
  Notation heap := (@heap P).
  Notation hswath := (swath nat W).
  Notation state := (@state P W).
  Notation op := (@op P W).
  Notation step := (step w_nonpos w_zero p_default p_lt wkt sort_perm move_points).
  Notation vstep := (vstep w_nonpos w_zero p_default p_lt wkt sort_perm move_points).

  Lemma set_same {A} (f : nat -> A) x a : set f x a x = a.
  Proof. unfold set. rewrite Nat.eqb_refl. reflexivity. Qed.
  Lemma set_other {A} (f : nat -> A) x a y : y <> x -> set f x a y = f y.
  Proof. intro N. unfold set. destruct (Nat.eqb_spec y x); congruence. Qed.

  Lemma wf_forall (st : state) c : well_formed st -> Forall (wfs (length (st_heap st))) (st_cont st c).
  Proof. intros [_ H]. apply Forall_forall. intros s I. apply (H c s I). Qed.

  Lemma in_addrs_holds (st : state) c a : well_formed st ->
    (In a (addrs (st_cont st c)) <-> exists i, holds st (InSwaths c i) a).
  Proof.
    intro Wf. split.
    - intro I. apply in_addrs in I. destruct I as (s & Is & Ia).
      destruct (proj2 Wf c s Is) as (b & E & L). rewrite E in Ia. destruct Ia as [<-|[]].
      apply In_nth_error in Is. destruct Is as (i & Ei). exists i. exists s. auto.
    - intros (i & s & Ei & E). unfold addrs. apply in_flat_map. exists s.
      split; [eapply nth_error_In; eauto|]. rewrite E. left; auto.
  Qed.

  Lemma nodup_of (n : nat) (l : list hswath) : Forall (wfs n) l ->
    (forall i j s t a, nth_error l i = Some s -> nth_error l j = Some t ->
       sw_path s = [a] -> sw_path t = [a] -> i = j) -> NoDup (addrs l).
  Proof.
    induction l; intros Wf H; cbn; [constructor|].
    inversion Wf; subst. destruct H2 as (x & Ex & Lx). rewrite Ex. cbn [app].
    constructor.
    - intro I. apply in_addrs in I. destruct I as (t & It & Ia).
      rewrite Forall_forall in H3. destruct (H3 t It) as (y & Ey & Ly). rewrite Ey in Ia.
      destruct Ia as [->|[]]. apply In_nth_error in It. destruct It as (j & Ej).
      specialize (H 0 (S j) a t x eq_refl Ej Ex Ey). discriminate.
    - apply IHl; auto. intros i j s t b Ei Ej Es Et.
      specialize (H (S i) (S j) s t b Ei Ej Es Et). lia.
  Qed.

  Lemma unshared_nodup (st : state) c : well_formed st ->
    (forall i, unshared st (InSwaths c i)) -> NoDup (addrs (st_cont st c)).
  Proof.
    intros Wf U. apply (nodup_of (length (st_heap st))); [apply wf_forall; auto|].
    intros i j s t a Ei Ej Es Et.
    assert (E : InSwaths c j = InSwaths c i).
    { apply (U i a); [exists s|exists t]; auto. }
    injection E. auto.
  Qed.

  Lemma view_line_frame (st : state) (h' : heap) x (A : nat -> Prop) :
    (forall b, ~ A b -> deref h' b = deref (st_heap st) b) ->
    (forall a, st_line st x = Some a -> ~ A a) ->
    option_map (deref h') (st_line st x) = option_map (deref (st_heap st)) (st_line st x).
  Proof.
    intros F N. destruct (st_line st x) as [a|] eqn:E; auto. cbn. rewrite F; auto.
  Qed.

  Lemma view_ext (h h' : heap) (ls : nat -> option nat) x :
    (forall a, ls x = Some a -> deref h' a = deref h a) ->
    option_map (deref h') (ls x) = option_map (deref h) (ls x).
  Proof. intro H. destruct (ls x); auto. cbn. rewrite H; auto. Qed.

  Lemma view_set (h : heap) (cs : nat -> list hswath) c l d :
    map (h_value h) (set cs c l d) = set (fun x => map (h_value h) (cs x)) c (map (h_value h) l) d.
  Proof. unfold set. destruct (d =? c); reflexivity. Qed.
  Lemma view_set_line (h : heap) (ls : nat -> option nat) x a y :
    option_map (deref h) (set ls x (Some a) y)
    = set (fun x => option_map (deref h) (ls x)) x (Some (deref h a)) y.
  Proof. unfold set. destruct (y =? x); reflexivity. Qed.

  Lemma get_line_views (st : state) x :
    get_line (v_line (views st)) x = omap (deref (st_heap st)) (get_line (st_line st) x).
  Proof. unfold get_line, views. cbn. destruct (st_line st x); reflexivity. Qed.

  (** A new line at the end of the heap leaves all views. *)
  Lemma grow_line (st : state) (h' : heap) x : well_formed st ->
    (forall b, b < length (st_heap st) -> deref h' b = deref (st_heap st) b) ->
    option_map (deref h') (st_line st x) = option_map (deref (st_heap st)) (st_line st x).
  Proof. intros Wf H. apply view_ext. intros a E. apply H. apply (proj1 Wf x a E). Qed.
  Lemma grow_cont (st : state) (h' : heap) c : well_formed st ->
    (forall b, b < length (st_heap st) -> deref h' b = deref (st_heap st) b) ->
    map (h_value h') (st_cont st c) = map (h_value (st_heap st)) (st_cont st c).
  Proof.
    intros Wf H. apply values_ext. intros a I. apply H. eapply addrs_lt; [apply wf_forall; exact Wf|exact I].
  Qed.

  (** A container operation that stays within its own, unshared lines. *)
  Lemma cont_op_value (st : state) c l' (h' : heap) v : well_formed st ->
    (forall i, unshared st (InSwaths c i)) ->
    (forall b, ~ In b (addrs (st_cont st c)) -> deref h' b = deref (st_heap st) b) ->
    map (h_value h') l' = v ->
    same_values (views (mkState h' (st_line st) (set (st_cont st) c l')))
      (mkV (v_line (views st)) (set (v_cont (views st)) c v)).
  Proof.
    intros Wf U F E. split.
    - intro x. cbn. apply view_ext. intros a Ea. apply F. intro I.
      apply in_addrs_holds in I; auto. destruct I as (i & Hi).
      assert (X : InLine x = InSwaths c i) by (apply (U i a); auto). discriminate.
    - intro d. cbn. rewrite view_set. unfold set. destruct (Nat.eqb_spec d c); auto.
      apply values_ext. intros a Ia. apply F. intro I.
      apply in_addrs_holds in I; auto. destruct I as (i & Hi).
      apply in_addrs_holds in Ia; auto. destruct Ia as (j & Hj).
      assert (X : InSwaths d j = InSwaths c i) by (apply (U i a); auto). congruence.
  Qed.

  Lemma same_refl (v : @vstate P W) : same_values v v.
  Proof. split; auto. Qed.

  Theorem step_value (st : state) (o : op) : well_formed st ->
    (forall p, changes o p -> unshared st p) ->
    orel (fun st' v' => same_values (views st') v') (step st o) (vstep (views st) o).
  Proof.
    intros Wf U. destruct o; cbn [Alias_Model.step Alias_Spec.vstep h_new_line h_clone_line].
    - (* NewLine *)
      constructor. split; intro y; cbn.
      + rewrite view_set_line, deref_app_new. unfold set. destruct (y =? x); auto.
        apply (grow_line st); auto. intros; apply deref_app; auto.
      + apply (grow_cont st); auto. intros; apply deref_app; auto.
    - (* CopyLine *)
      rewrite get_line_views. unfold get_line. destruct (st_line st x) as [a|] eqn:E; cbn; constructor.
      split; intro z; cbn; auto. apply view_set_line.
    - (* CloneLine *)
      rewrite get_line_views. unfold get_line. destruct (st_line st x) as [a|] eqn:E; cbn; constructor.
      split; intro z; cbn.
      + rewrite view_set_line, deref_app_new. unfold set. destruct (z =? y); auto.
        apply (grow_line st); auto. intros; apply deref_app; auto.
      + apply (grow_cont st); auto. intros; apply deref_app; auto.
    - (* ReversePoints *)
      rewrite get_line_views. unfold get_line. destruct (st_line st x) as [a|] eqn:E; cbn; constructor.
      assert (L : a < length (st_heap st)) by (apply (proj1 Wf x a E)).
      assert (Ux : unshared st (InLine x)) by (apply U; reflexivity).
      split; intro z; cbn.
      + unfold set. destruct (Nat.eqb_spec z x).
        * subst. rewrite E. cbn. rewrite deref_store_same by auto. reflexivity.
        * apply view_ext. intros b Eb. apply deref_store_other. intro; subst b.
          assert (X : InLine z = InLine x) by (apply (Ux a); auto). congruence.
      + apply values_ext. intros b I. apply deref_store_other. intro; subst b.
        apply in_addrs_holds in I; auto. destruct I as (i & Hi).
        assert (X : InSwaths z i = InLine x) by (apply (Ux a); auto). discriminate.
    - (* GetPath *)
      cbn [views v_cont]. rewrite vec_at_map. unfold vec_at.
      destruct (nth_error (st_cont st c) i) as [s|] eqn:E; cbn; [|constructor].
      destruct (proj2 Wf c s) as (a & Ea & La); [eapply nth_error_In; eauto|].
      rewrite Ea. constructor. split; intro z; cbn; auto.
      rewrite view_set_line. unfold h_path. rewrite Ea. reflexivity.
    - (* SetPath *)
      rewrite get_line_views. cbn [views v_cont]. rewrite vec_at_map. unfold vec_at.
      destruct (nth_error (st_cont st c) i) as [s|] eqn:E; cbn [bind omap]; [|constructor].
      unfold get_line. destruct (st_line st x) as [a|] eqn:Ex; cbn [bind omap]; [|constructor].
      change (swath_setPath (h_value (st_heap st) s) (deref (st_heap st) a))
        with (h_value (st_heap st) (swath_setPath s [a])).
      rewrite vec_set_map. destruct (vec_set (st_cont st c) i (swath_setPath s [a])); cbn; constructor.
      split; intro z; cbn; auto. apply view_set.
    - (* Emplace *)
      rewrite get_line_views. unfold get_line. destruct (st_line st x) as [a|] eqn:Ex; cbn [bind omap]; [|constructor].
      unfold hs_new, swath_new, swath_setWidth. destruct (w_nonpos w); cbn; constructor.
      split; intro z; cbn; auto. rewrite view_set, map_app. reflexivity.
    - (* EmplaceNew *)
      unfold hs_new, swath_new, swath_setWidth. destruct (w_nonpos w); cbn; constructor.
      split; intro z; cbn.
      + apply (grow_line st); auto. intros; apply deref_app; auto.
      + rewrite view_set, map_app. cbn [map]. unfold h_value at 3, h_path. cbn. rewrite deref_app_new.
        unfold set. destruct (z =? c).
        * f_equal. apply (grow_cont st); auto. intros; apply deref_app; auto.
        * apply (grow_cont st); auto. intros; apply deref_app; auto.
    - (* NewSwaths *)
      constructor. split; intro z; cbn; auto. rewrite view_set. reflexivity.
    - (* PushBack *)
      cbn [views v_cont]. rewrite vec_at_map. unfold vec_at.
      destruct (nth_error (st_cont st d) i) as [s|] eqn:E; cbn; [|constructor].
      constructor. split; intro z; cbn; auto. rewrite view_set, map_app. reflexivity.
    - (* Append *)
      cbn [views v_cont]. rewrite map_length.
      destruct ((c =? d) && negb (length (st_cont st d) =? 0)); constructor.
      split; intro z; cbn; auto. unfold swaths_append_swaths. rewrite view_set, map_app. reflexivity.
    - (* CopySwaths *)
      constructor. split; intro z; cbn; auto. apply view_set.
    - (* CloneSwaths *)
      pose proof (clone_list w_nonpos w_zero wkt (st_cont st c) (st_heap st) (wf_forall st c Wf)) as CL.
      cbn [views v_cont]. destruct CL as [p vv (Fr & Len & Hv)|e| |]; cbn [bind]; constructor.
      destruct p as [l' h']. cbn [fst snd] in *. apply fresh_from_result in Fr.
      destruct Fr as (F1 & F2 & _). cbn [fst snd] in *. split; intro z; cbn.
      + apply (grow_line st); auto.
      + rewrite view_set, Hv. unfold set. destruct (z =? d); auto. apply (grow_cont st); auto.
    - (* ReverseSwath *)
      cbn [views v_cont]. rewrite vec_at_map. unfold vec_at.
      destruct (nth_error (st_cont st c) i) as [s|] eqn:E; cbn [bind omap]; [|constructor].
      destruct (reverse_at (st_heap st) (st_cont st c) i s (wf_forall st c Wf) E)
        as (l2 & A & B & C & D & F & _).
      assert (Ui : unshared st (InSwaths c i)) by (apply U; cbn; auto).
      destruct (proj2 Wf c s) as (a & Ea & La); [eapply nth_error_In; eauto|].
      destruct (reverse_local (st_heap st) s) as (R1 & R2 & R3 & R4); [exists a; auto|].
      destruct (hs_reverse (st_heap st) s) as [s' h'] eqn:Er. cbn [fst snd] in *.
      rewrite A. cbn [bind].
      assert (V : vec_set (map (h_value (st_heap st)) (st_cont st c)) i (swath_reverse (h_value (st_heap st) s))
                  = Ok (map (h_value h') l2)).
      { rewrite <- R4. unfold vec_set. rewrite nth_error_map, E. cbn [option_map].
        unfold vec_set in A. rewrite E in A. injection A as <-. f_equal.
        rewrite map_app. cbn [map]. rewrite firstn_map.
        change (match map (h_value (st_heap st)) (st_cont st c) with [] => [] | _ :: l0 => skipn i l0 end)
          with (skipn (S i) (map (h_value (st_heap st)) (st_cont st c))).
        change (match st_cont st c with [] => [] | _ :: l0 => skipn i l0 end) with (skipn (S i) (st_cont st c)).
        rewrite skipn_map.
        assert (Q : forall j t, nth_error (st_cont st c) j = Some t -> j <> i ->
                      h_value h' t = h_value (st_heap st) t).
        { intros j t Et Nj. apply value_ext. intros b Ib. apply R3. intro Ib'.
          rewrite Ea in Ib'. destruct Ib' as [<-|[]].
          destruct (proj2 Wf c t) as (a' & Ea' & La'); [eapply nth_error_In; eauto|].
          rewrite Ea' in Ib. destruct Ib as [->|[]].
          assert (X : InSwaths c j = InSwaths c i) by (apply (Ui a); [exists s|exists t]; auto). congruence. }
        f_equal; [|f_equal]; apply map_ext_in; intros t It; symmetry;
          apply In_nth_error in It; destruct It as (j & Ej).
        - assert (Lj : j < i).
          { destruct (lt_dec j i); auto. rewrite nth_error_firstn_ge in Ej by lia. discriminate. }
          rewrite nth_error_firstn_lt in Ej by auto. apply (Q j t Ej). lia.
        - rewrite nth_error_skipn' in Ej. apply (Q (S i + j) t Ej). lia. }
      rewrite V. cbn [bind]. constructor. split; intro z; cbn.
      + apply view_ext. intros b Eb. apply R3. rewrite Ea. intros [<-|[]].
        assert (X : InLine z = InSwaths c i) by (apply (Ui a); [exists s; auto|auto]). discriminate.
      + rewrite view_set. unfold set. destruct (Nat.eqb_spec z c); auto.
        apply values_ext. intros b Ib. apply R3. rewrite Ea. intros [<-|[]].
        apply in_addrs_holds in Ib; auto. destruct Ib as (j & Hj).
        assert (X : InSwaths z j = InSwaths c i) by (apply (Ui a); [exists s; auto|auto]). congruence.
    - (* ReverseOrder *)
      constructor. split; intro z; cbn; auto. rewrite view_set. unfold swaths_reverse. rewrite map_rev. reflexivity.
    - (* ReverseDirOdd *)
      destruct (dirodd_ok (st_cont st c) (st_heap st) (wf_forall st c Wf)) as (R1 & R2 & R3 & R4 & R5).
      destruct (hss_reverseDirOddSwaths (st_heap st) (st_cont st c)) as [l' h']. cbn [fst snd] in *.
      assert (Uc : forall i, unshared st (InSwaths c i)) by (intro; apply U; reflexivity).
      constructor. apply cont_op_value; auto. apply R5. apply unshared_nodup; auto.
    - (* Sort *)
      destruct (sort_ok sort_perm perm_ok p_default p_lt (st_heap st) (st_cont st c) (wf_forall st c Wf))
        as (R1 & R2 & R3 & R4 & R5).
      destruct (hss_sort p_default p_lt sort_perm (st_heap st) (st_cont st c)) as [l' h']. cbn [fst snd] in *.
      assert (Uc : forall i, unshared st (InSwaths c i)) by (intro; apply U; reflexivity).
      constructor. apply cont_op_value; auto. apply R5. apply unshared_nodup; auto.
    - (* MoveTo *)
      assert (Uc : forall i, unshared st (InSwaths c i)) by (intro; apply U; reflexivity).
      pose proof (move_values move_points ref_pt (st_cont st c) (st_heap st) (wf_forall st c Wf)
                    (unshared_nodup st c Wf Uc)) as MV.
      unfold pure_move in MV. cbn [views v_cont].
      destruct (hss_moveTo move_points (st_heap st) ref_pt (st_cont st c)) as [h'| | |] eqn:E;
        inversion MV; subst; cbn [bind]; constructor.
      destruct (move_loop move_points ref_pt _ _ _ (wf_forall st c Wf) E) as (M1 & M2).
      pose proof (cont_op_value st c (st_cont st c) h' _ Wf Uc M2 eq_refl) as [X Y].
      split; intro z.
      + exact (X z).
      + refine (eq_trans _ (Y z)). cbn. f_equal. unfold set. destruct (Nat.eqb_spec z c); subst; auto.
    - (* GenSorted *)
      pose proof (gen_ok w_nonpos w_zero p_default p_lt wkt sort_perm perm_ok k (st_heap st) (st_cont st c) v
                    (wf_forall st c Wf)) as G.
      cbn [views v_cont]. destruct G as [p vv ((F1 & F2 & F3 & F4 & F5) & Hv)|e| |]; cbn [bind]; constructor.
      destruct p as [l' h']. cbn [fst snd] in *. split; intro z; cbn.
      + apply (grow_line st); auto.
      + rewrite view_set, Hv. unfold set. destruct (z =? d); auto. apply (grow_cont st); auto.
  Qed.
End Prog.
