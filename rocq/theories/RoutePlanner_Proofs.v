(** Proofs about the coverage graph and the conversion of tours to routes. *)
From Coq Require Import List Arith ZArith Lia Bool Permutation.
From Verif Require Import Outcome ListAux Swath_Model Graph_Model Graph_Proofs2 Graph_Proofs3 Graph_Proofs4
  Graph2D_Model Graph2D_Spec Graph2D_Proofs Graph2D_Props Route_Model Route_Spec Route_Proofs RoutePlanner_Model.
Import ListNotations.

(** ** Tours as label lists *)
Inductive kind : Set := KStart | KEnd | KMid.
Definition kind_eq_dec (x : kind) : {x = KMid} + {x <> KMid}.
Proof. destruct x; (left; reflexivity) || (right; discriminate). Defined.
Notation lbl := (nat * kind)%type (only parsing).

Section Tour.
  Variable n : nat.
  Variable redirect : bool.

  Definition is_mid (l : lbl) : bool := match snd l with KMid => true | _ => false end.

  (** Arcs of the coverage graph that touch the middle of a swath. *)
  Definition mid_ok (a b : lbl) : Prop :=
    (forall k, b = (k, KMid) -> a = (k, KStart) \/ redirect = true /\ a = (k, KEnd)) /\
    (forall k, a = (k, KMid) -> b = (k, KEnd) \/ redirect = true /\ b = (k, KStart)).

  Fixpoint chain (R : lbl -> lbl -> Prop) (L : list lbl) : Prop :=
    match L with
    | a :: ((b :: _) as t) => R a b /\ chain R t
    | _ => True
    end.

  Lemma chain_nth (R : lbl -> lbl -> Prop) L : chain R L -> forall i a b, nth_error L i = Some a -> nth_error L (S i) = Some b -> R a b.
  Proof.
    induction L as [|x L IH]; intros H i a b Ha Hb; [destruct i; discriminate|].
    destruct i as [|i]; simpl in Ha, Hb.
    - destruct L as [|y L]; [discriminate|]. simpl in *. assert (x = a) by congruence. assert (y = b) by congruence. subst. tauto.
    - destruct L as [|y L]; [destruct i; discriminate|]. simpl in H. eapply IH; [apply H|exact Ha|exact Hb].
  Qed.

  Variable L : list lbl.
  Hypothesis HND : NoDup L.
  Hypothesis HC : chain mid_ok L.
  Hypothesis HF : forall a, nth_error L 0 = Some a -> is_mid a = false.
  Hypothesis HL : forall a, nth_error L (length L - 1) = Some a -> is_mid a = false.
  Hypothesis Hmid : forall k, k < n -> In (k, KMid) L.
  Hypothesis Hval : forall l, In l L -> fst l < n.

  Lemma nth_inj i j a : nth_error L i = Some a -> nth_error L j = Some a -> i = j.
  Proof.
    intros Hi Hj. rewrite NoDup_nth_error in HND. apply HND; [apply nth_error_Some; congruence|congruence].
  Qed.

  (** The neighbours of a middle are its two ends. *)
  Lemma mid_between k m : nth_error L m = Some (k, KMid) ->
    exists i, m = S i /\
    ((nth_error L i = Some (k, KStart) /\ nth_error L (i + 2) = Some (k, KEnd)) \/
     (redirect = true /\ nth_error L i = Some (k, KEnd) /\ nth_error L (i + 2) = Some (k, KStart))).
  Proof.
    intro Hm. destruct m as [|i]; [apply HF in Hm; discriminate|]. exists i. split; auto.
    assert (Hlt : S i < length L) by (apply nth_error_Some; congruence).
    destruct (Nat.eq_dec (S i) (length L - 1)) as [E|E].
    { rewrite E in Hm. apply HL in Hm. discriminate. }
    destruct (nth_error L i) as [a|] eqn:Ea; [|apply nth_error_None in Ea; lia].
    destruct (nth_error L (i + 2)) as [b|] eqn:Eb; [|apply nth_error_None in Eb; lia].
    destruct (chain_nth _ _ HC i a (k, KMid) Ea Hm) as [H1 _].
    replace (i + 2) with (S (S i)) in Eb by lia.
    destruct (chain_nth _ _ HC (S i) (k, KMid) b Hm Eb) as [_ H2].
    specialize (H1 k eq_refl). specialize (H2 k eq_refl).
    destruct H1 as [->|[R1 ->]], H2 as [->|[R2 ->]]; auto.
    - assert (i = S (S i)) by (eapply nth_inj; eauto). lia.
    - assert (i = S (S i)) by (eapply nth_inj; eauto). lia.
  Qed.

  (** A window of two ends of one swath has its middle inside. *)
  Lemma ends_around k i a b : k < n -> nth_error L i = Some (k, a) -> nth_error L (i + 2) = Some (k, b) ->
    a <> KMid -> b <> KMid -> nth_error L (i + 1) = Some (k, KMid).
  Proof.
    intros Hk Ha Hb Na Nb. destruct (In_nth_error _ _ (Hmid k Hk)) as [m Hm].
    destruct (mid_between k m Hm) as (j & -> & Hj).
    assert (Hab : a <> b). { intros ->. assert (i = i + 2) by (eapply nth_inj; eauto). lia. }
    assert (i = j); [|subst j; replace (i + 1) with (S i) by lia; auto].
    destruct Hj as [[H1 H2]|(_ & H1 & H2)]; destruct a, b; try congruence.
    - eapply nth_inj; eauto.
    - assert (i = j + 2) by (eapply nth_inj; eauto). assert (i + 2 = j) by (eapply nth_inj; eauto). lia.
    - assert (i = j + 2) by (eapply nth_inj; eauto). assert (i + 2 = j) by (eapply nth_inj; eauto). lia.
    - eapply nth_inj; eauto.
  Qed.

  (** What the windows of a tour say: swath index and "driven backwards". *)
  Definition window (i : nat) : option (nat * bool) :=
    match nth_error L i, nth_error L (i + 1) with
    | Some a, Some (k, KMid) => Some (k, match snd a with KStart => false | _ => true end)
    | _, _ => None
    end.
  Definition windows : list (nat * bool) :=
    flat_map (fun i => match window i with Some x => [x] | None => [] end) (seq 0 (length L - 2)).

  Lemma windows_mids : map fst windows = map fst (filter is_mid L).
  Proof.
    assert (H : forall m, m + 1 <= length L -> 
      map fst (flat_map (fun i => match window i with Some x => [x] | None => [] end) (seq 0 m)) =
      map fst (filter is_mid (firstn (m + 1) L))).
    { induction m as [|m IH]; intro Hm.
      - simpl. destruct L as [|a t] eqn:EL; auto. simpl. rewrite (HF a eq_refl). auto.
      - rewrite seq_S, flat_map_app, map_app, IH by lia. change (S m + 1) with (S (m + 1)).
        destruct (nth_error L (m + 1)) as [[k x]|] eqn:E; [|apply nth_error_None in E; lia].
        assert (Ef : firstn (S (m + 1)) L = firstn (m + 1) L ++ [(k, x)]).
        { clear - E. revert E. generalize (m + 1). induction L as [|y t IH]; intros [|j] E; simpl in *; try discriminate.
          - congruence.
          - rewrite <- IH by auto. auto. }
        rewrite Ef, filter_app, map_app. f_equal. simpl. rewrite app_nil_r. unfold window. rewrite E.
        destruct (nth_error L m) as [a|] eqn:Ea; [|apply nth_error_None in Ea; lia]. destruct x; auto. }
    destruct (le_lt_dec (length L) 1) as [Hl|Hl].
    - unfold windows. replace (length L - 2) with 0 by lia. simpl.
      destruct L as [|a [|b t]]; simpl in *; auto; [|lia]. rewrite (HF a eq_refl). auto.
    - unfold windows. rewrite H by lia. replace (length L - 2 + 1) with (length L - 1) by lia.
      destruct (nth_error L (length L - 1)) as [a|] eqn:E; [|apply nth_error_None in E; lia].
      assert (EL : L = firstn (length L - 1) L ++ [a]).
      { assert (Hx : forall (t : list lbl) a, nth_error t (length t - 1) = Some a -> t = firstn (length t - 1) t ++ [a]).
        { intros t a0. destruct t as [|y t] using rev_ind; [discriminate|]. rewrite app_length. simpl.
          replace (length t + 1 - 1) with (length t) by lia. rewrite nth_error_app2, Nat.sub_diag by lia. simpl.
          intro Hy. assert (y = a0) by congruence. subst. rewrite firstn_app, Nat.sub_diag, firstn_all, app_nil_r. auto. }
        apply Hx; auto. }
      rewrite EL at 3. rewrite filter_app. simpl. rewrite (HL a eq_refl). rewrite app_nil_r. auto.
  Qed.

  Lemma windows_perm : Permutation (map fst windows) (seq 0 n).
  Proof.
    rewrite windows_mids. apply NoDup_Permutation.
    - assert (HN : NoDup (filter is_mid L)) by (apply NoDup_filter; auto).
      assert (Hm : forall l, In l (filter is_mid L) -> snd l = KMid).
      { intros [k x] H. apply filter_In in H. destruct H as [_ H]. destruct x; discriminate || auto. }
      induction (filter is_mid L) as [|[k x] t IH]; simpl; constructor.
      + intro Hin. apply in_map_iff in Hin. destruct Hin as ([k' x'] & Ek & Hin). simpl in Ek. subst k'.
        assert (x = KMid) by (apply (Hm (k, x)); left; auto). assert (x' = KMid) by (apply (Hm (k, x')); right; auto).
        subst. inversion HN. contradiction.
      + apply IH; [inversion HN; auto|]. intros l Hl. apply Hm. right; auto.
    - apply seq_NoDup.
    - intro k. rewrite in_map_iff. split.
      + intros ([k' x] & <- & H). apply filter_In in H. destruct H as [H _]. apply in_seq. apply Hval in H. simpl in *. lia.
      + intro H. apply in_seq in H. exists (k, KMid). split; auto. apply filter_In. split; auto. apply Hmid. lia.
  Qed.

  Lemma windows_forward : redirect = false -> Forall (fun x => snd x = false) windows.
  Proof.
    intro Hr. apply Forall_forall. intros [k b] H. apply in_flat_map in H. destruct H as (i & _ & H).
    destruct (window i) as [x|] eqn:E; [|contradiction]. destruct H as [->|[]]. unfold window in E.
    destruct (nth_error L i) as [a|] eqn:Ea; [|discriminate].
    destruct (nth_error L (i + 1)) as [[k' x]|] eqn:Em; [|discriminate]. destruct x; try discriminate.
    destruct (mid_between k' (i + 1) Em) as (j & Ej & Hj). assert (j = i) by lia. subst j.
    destruct Hj as [[H1 _]|[Hr' _]]; [|congruence]. assert (a = (k', KStart)) by congruence. subst a.
    simpl in *. congruence.
  Qed.
End Tour.

(** ** Arcs of the coverage graph *)
Section Arcs.
  Context {P W : Type}.
  Variable p_default : P.
  Variable keq : P -> P -> bool.
  Variable mid : P -> P -> P.
  Variable far : P.
  Notation swath := (swath P W).
  Notation start := (swath_startPoint p_default).
  Notation stop := (swath_endPoint p_default).

  Inductive adds : graph2d P -> list (P * P) -> graph2d P -> Prop :=
  | adds_nil : forall g, adds g [] g
  | adds_cons : forall g a b c l g', adds (g2_addDirectedEdge keq g a b c) l g' -> adds g ((a, b) :: l) g'.

  Lemma adds_app g l1 g1 l2 g2 : adds g l1 g1 -> adds g1 l2 g2 -> adds g (l1 ++ l2) g2.
  Proof. intros H1 H2. induction H1; simpl; auto. econstructor; eauto. Qed.

  Lemma adds_one g a b c : adds g [(a, b)] (g2_addDirectedEdge keq g a b c).
  Proof. econstructor. constructor. Qed.

  Lemma adds_edge g a b c : adds g [(a, b); (b, a)] (g2_addEdge keq g a b c).
  Proof. econstructor. econstructor. constructor. Qed.

  Lemma adds_edge_short g a b sg g' sg' : g2_addEdge_short keq g a b sg = Ok (g', sg') -> adds g [(a, b); (b, a)] g'.
  Proof.
    unfold g2_addEdge_short. intro H. bok H. bok H.
    match type of H with Ok (?x, _) = _ => assert (g' = x) by congruence end. subst g'.
    econstructor. econstructor. constructor.
  Qed.

  Lemma adds_directed_short g a b sg g' sg' : g2_addDirectedEdge_short keq g a b sg = Ok (g', sg') -> adds g [(a, b)] g'.
  Proof.
    unfold g2_addDirectedEdge_short. intro H. bok H.
    match type of H with Ok (?x, _) = _ => assert (g' = x) by congruence end. subst g'.
    econstructor. constructor.
  Qed.

  Definition both (a b : P) : list (P * P) := [(a, b); (b, a)].
  Definition arcs_swath (redirect : bool) (s : swath) : list (P * P) :=
    let m := mid (start s) (stop s) in
    if redirect then both (start s) m ++ both (stop s) m else [(start s, m); (m, stop s)].
  Definition arcs_pair (redirect : bool) (ss : swath * swath) : list (P * P) :=
    let (s1, s2) := ss in
    if redirect then both (start s1) (start s2) ++ both (stop s1) (stop s2) ++ both (start s1) (stop s2) ++ both (stop s1) (start s2)
    else [(stop s1, start s2)].
  Definition depot_of (r_start_end : option P) : P := match r_start_end with Some p => p | None => far end.
  Definition arcs_depot (d : P) (s : swath) : list (P * P) := both (start s) d ++ both (stop s) d.

  Lemma adds_swaths redirect ss : forall g, adds g (flat_map (arcs_swath redirect) ss) (fold_left (cov_swath p_default keq mid redirect) ss g).
  Proof.
    induction ss as [|s ss IH]; intro g; simpl; [constructor|].
    eapply adds_app; [|apply IH]. unfold arcs_swath, cov_swath. destruct redirect.
    - eapply adds_app; apply adds_edge.
    - econstructor. econstructor. constructor.
  Qed.

  Lemma adds_pairs redirect l : forall gs gs', foldM (cov_pair p_default keq redirect) l gs = Ok gs' ->
    adds (fst gs) (flat_map (arcs_pair redirect) l) (fst gs').
  Proof.
    induction l as [|[s1 s2] l IH]; intros gs gs' H; simpl in H.
    - assert (gs = gs') by congruence. subst. constructor.
    - bok H. simpl. eapply adds_app; [|eapply IH; eauto]. clear H. unfold arcs_pair. destruct redirect.
      + bok E. bok E. bok E. destruct r0, r1, r2, r. simpl in *.
        do 3 (eapply (adds_app _ [_; _]); [eapply adds_edge_short; eauto|]). eapply adds_edge_short; eauto.
      + destruct r. eapply adds_directed_short; eauto.
  Qed.

  Lemma adds_depots rse ss : forall gs gs', foldM (cov_depot p_default keq far rse) ss gs = Ok gs' ->
    adds (fst gs) (flat_map (arcs_depot (depot_of rse)) ss) (fst gs').
  Proof.
    induction ss as [|s l IH]; intros gs gs' H; simpl in H.
    - assert (gs = gs') by congruence. subst. constructor.
    - bok H. simpl. eapply (adds_app _ (arcs_depot (depot_of rse) s)); [|eapply IH; eauto]. clear H. unfold arcs_depot. destruct rse as [d|]; simpl in *.
      + bok E. destruct r0, r. simpl in *. eapply (adds_app _ [_; _]); [eapply adds_edge_short; eauto|]. eapply adds_edge_short; eauto.
      + match type of E with Ok ?x = _ => assert (r = x) by congruence end. subst r. simpl.
        eapply (adds_app _ [_; _]); apply adds_edge.
  Qed.

  Definition arcs_inner (redirect : bool) (ss : list swath) : list (P * P) :=
    flat_map (arcs_swath redirect) ss ++ flat_map (arcs_pair redirect) (list_prod ss ss).

  Lemma adds_coverage rse sbc sg redirect g sg' :
    createCoverageGraph p_default keq mid far rse sbc sg redirect = Ok (g, sg') ->
    exists g1, adds g2_empty (arcs_inner redirect (concat sbc)) g1 /\
      adds g1 (flat_map (arcs_depot (depot_of rse)) (concat sbc)) g.
  Proof.
    unfold createCoverageGraph. intro H. bok H. exists (fst r). split.
    - eapply adds_app; [apply adds_swaths|]. apply adds_pairs in E. exact E.
    - apply adds_depots in H. exact H.
  Qed.

  (** The same as a history of the point graph. *)
  Definition arc_of (o : g2op P) : P * P := match o with G2AddDirected a b _ => (a, b) | G2Add a b _ => (a, b) | G2AddDirectedDist a b => (a, b) | G2AddDist a b => (a, b) | G2RemoveDirected a b => (a, b) | G2Remove a b => (a, b) | G2Path a b _ => (a, b) | G2Cost a b _ => (a, b) end.
  Definition is_dir (o : g2op P) : Prop := exists a b c, o = G2AddDirected a b c.

  Lemma adds_history dc g l g' : adds g l g' -> exists h, map arc_of h = l /\ Forall is_dir h /\
    foldM (g2_run_op keq dc) h g = Ok g'.
  Proof.
    induction 1 as [g|g a b c l g' H IH].
    - exists []. repeat split; auto.
    - destruct IH as (h & H1 & H2 & H3). exists (G2AddDirected a b c :: h). simpl. split; [congruence|].
      split; [constructor; auto; unfold is_dir; eauto|]. auto.
  Qed.

End Arcs.

  Lemma inserted_of_arcs {P} (h : list (g2op P)) p : Forall is_dir h ->
    (In p (inserted h) <-> exists a b, In (a, b) (map arc_of h) /\ (p = a \/ p = b)).
  Proof.
    intro HD. unfold inserted. rewrite in_flat_map. rewrite Forall_forall in HD. split.
    - intros (o & Ho & Hp). destruct (HD o Ho) as (a & b & c & ->). simpl in Hp. exists a, b. split.
      + apply in_map_iff. exists (G2AddDirected a b c). auto.
      + intuition.
    - intros (a & b & H & Hp). apply in_map_iff in H. destruct H as (o & Eo & Ho).
      destruct (HD o Ho) as (a' & b' & c & ->). exists (G2AddDirected a' b' c). split; auto. simpl in *.
      assert (a = a' /\ b = b') as [-> ->] by (split; congruence). intuition.
  Qed.

  Lemma edge_of_arcs {P} (keq : P -> P -> bool) dc h p q : Forall is_dir h ->
    (g2_edge keq dc h p q <> None <-> exists a b, In (a, b) (map arc_of h) /\ keq a p = true /\ keq b q = true).
  Proof.
    unfold g2_edge. intro HD.
    assert (G : forall old, fold_left (fun old o => g2op_cost keq dc p q o old) h old <> None <->
      old <> None \/ exists a b, In (a, b) (map arc_of h) /\ keq a p = true /\ keq b q = true).
    { induction h as [|o h IH]; intro old; simpl.
      - split; auto. intros [|(a & b & [] & _)]; auto.
      - pose proof (Forall_inv HD) as (a & b & c & ->). rewrite IH by (eapply Forall_inv_tail; eauto). simpl.
        destruct (keq a p && keq b q) eqn:E.
        + apply andb_true_iff in E. split; [intros _; right; exists a, b; tauto|intros _; left; discriminate].
        + split.
          * intros [H|(x & y & H & Hx & Hy)]; auto. right. exists x, y. auto.
          * intros [H|(x & y & [H|H] & Hx & Hy)]; auto.
            -- assert (x = a /\ y = b) as [-> ->] by (split; congruence). rewrite Hx, Hy in E. discriminate.
            -- right. exists x, y. auto. }
    rewrite G. split; [intros [H|H]; auto; congruence|auto].
  Qed.

