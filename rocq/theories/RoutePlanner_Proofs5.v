(** Proofs about the shortest-path graph. *)
From Coq Require Import List Arith ZArith Lia Bool Permutation.
From Verif Require Import Outcome ListAux Swath_Model Graph_Model Graph_Spec Graph_Proofs2 Graph_Proofs3 Graph_Proofs4
  Graph2D_Model Graph2D_Spec Graph2D_Proofs Graph2D_Proofs2 Graph2D_Props
  RoutePlanner_Model RoutePlanner_Spec RoutePlanner_Proofs2.
Import ListNotations.

Section Shortest.
  Context {P W : Type}.
  Variable p_default : P.
  Variable keq : P -> P -> bool.
  Variable dc : P -> P -> Z.
  Variable closest : P -> outcome P.
  Variable near : P -> P -> P -> bool.
  Variable node_order : list P -> list P.
  Variable edge_order : list (nat * list (nat * Z)) -> list (nat * nat).
  Hypothesis Heq : equivalence keq.
  Hypothesis Hnear : forall a b n a' b' n', keq a a' = true -> keq b b' = true -> keq n n' = true -> near a b n = near a' b' n'.
  Hypothesis Hnodes : forall l, Permutation (node_order l) l.
  Hypothesis Hedges : forall e, Permutation (edge_order e) (edge_pairs e).
  Notation swath := (swath P W).
  Let krefl : forall p, keq p p = true := proj1 Heq.
  Let ksym : forall p q, keq p q = keq q p := proj1 (proj2 Heq).
  Let ktrans : forall p q r, keq p q = true -> keq q r = true -> keq p r = true := proj2 (proj2 Heq).

  Definition edit (o : g2op P) : bool := match o with G2AddDist _ _ | G2Remove _ _ => true | _ => false end.

  (** ** Reachability along the edges of a history *)
  Inductive reach (h : list (g2op P)) : P -> P -> Prop :=
  | reach_refl : forall p q, keq p q = true -> reach h p q
  | reach_step : forall p q r c, g2_edge keq dc h p q = Some c -> reach h q r -> reach h p r.

  Lemma reach_congr h p p' q q' : keq p p' = true -> keq q q' = true -> reach h p q -> reach h p' q'.
  Proof.
    intros Hp Hq H. revert p' q' Hp Hq. induction H as [p q Hpq|p q r c He Hr IH]; intros p' q' Hp Hq.
    - apply reach_refl. apply (ktrans _ p); [rewrite ksym; auto|]. apply (ktrans _ q); auto.
    - apply (reach_step _ _ q _ c).
      + rewrite <- He. apply (g2_edge_congr keq dc Heq); auto. rewrite ksym. auto.
      + apply IH; auto.
  Qed.

  Lemma reach_trans h p q r : reach h p q -> reach h q r -> reach h p r.
  Proof.
    intros H1 H2. induction H1 as [p q Hpq|p q s c He Hr IH].
    - eapply reach_congr; [rewrite ksym; exact Hpq|apply krefl|auto].
    - eapply reach_step; eauto.
  Qed.

  Lemma reach_sym h p q : (forall a b, g2_edge keq dc h a b <> None -> g2_edge keq dc h b a <> None) -> reach h p q -> reach h q p.
  Proof.
    intros Hs H. induction H as [p q Hpq|p q s c He Hr IH].
    - apply reach_refl. rewrite ksym. auto.
    - apply (reach_trans _ _ q); auto. destruct (g2_edge keq dc h q p) as [c'|] eqn:E.
      + apply (reach_step _ _ p _ c'); auto. apply reach_refl, krefl.
      + exfalso. apply (Hs p q); congruence.
  Qed.

  Lemma reach_route h p q : reach h p q -> exists l c a b, pt_route keq dc h l c /\
    hd_error l = Some a /\ keq a p = true /\ hd_error (rev l) = Some b /\ keq b q = true.
  Proof.
    intro H. induction H as [p q Hpq|p q r c He Hr (l & c' & a & b & HR & Ha & Ka & Hb & Kb)].
    - exists [p], 0%Z, p, p. split; [constructor|]. simpl. repeat split; auto.
    - exists (p :: l), (c + c')%Z, p, b. split.
      + destruct l as [|x l]; [discriminate|]. simpl in Ha. assert (x = a) by congruence. subst x.
        constructor; auto. rewrite <- He. apply (g2_edge_congr keq dc Heq); auto.
      + split; auto. split; auto. split; auto. simpl. destruct (rev l); [discriminate|auto].
  Qed.

  (** ** One edit *)
  Lemma edge_snoc h o p q : g2_edge keq dc (h ++ [o]) p q = g2op_cost keq dc p q o (g2_edge keq dc h p q).
  Proof. unfold g2_edge. rewrite fold_left_app. auto. Qed.

  Lemma edge_sym h : forallb edit h = true -> forall a b, g2_edge keq dc h a b <> None -> g2_edge keq dc h b a <> None.
  Proof.
    induction h as [|o h IH] using rev_ind; intros He a b.
    - auto.
    - rewrite forallb_app in He. apply andb_true_iff in He. destruct He as [He Ho]. simpl in Ho.
      rewrite !edge_snoc. destruct o; simpl in *; try discriminate.
      + destruct (keq i b) eqn:E1, (keq j a) eqn:E2, (keq i a) eqn:E3, (keq j b) eqn:E4; simpl; auto; discriminate.
      + destruct (keq i b) eqn:E1, (keq j a) eqn:E2, (keq i a) eqn:E3, (keq j b) eqn:E4; simpl; auto; discriminate.
  Qed.

  Lemma reach_add h a b p q : reach h p q -> reach (h ++ [G2AddDist a b]) p q.
  Proof.
    intro H. induction H as [p q Hpq|p q r c He Hr IH]; [apply reach_refl; auto|].
    assert (X : exists c', g2_edge keq dc (h ++ [G2AddDist a b]) p q = Some c').
    { rewrite edge_snoc. simpl. rewrite He. destruct (keq a p && keq b q || keq b p && keq a q); eauto. }
    destruct X as [c' X]. eapply reach_step; eauto.
  Qed.

  Lemma reach_added h a b : reach (h ++ [G2AddDist a b]) a b.
  Proof.
    apply (reach_step _ a b b (dc a b)); [|apply reach_refl, krefl]. rewrite edge_snoc. simpl. rewrite !krefl. auto.
  Qed.

  Definition block (a b n : P) : list (g2op P) := [G2AddDist a n; G2AddDist n b; G2Remove a b].

  Lemma block_edges h a b n p q : g2_edge keq dc (h ++ block a b n) p q =
    if keq a p && keq b q || keq b p && keq a q then None
    else if keq n p && keq b q || keq b p && keq n q then Some (dc n b)
    else if keq a p && keq n q || keq n p && keq a q then Some (dc a n)
    else g2_edge keq dc h p q.
  Proof.
    unfold block. change [G2AddDist a n; G2AddDist n b; G2Remove a b] with ([G2AddDist a n] ++ [G2AddDist n b] ++ [G2Remove a b]).
    rewrite !app_assoc, !edge_snoc. simpl. auto.
  Qed.

  Lemma block_reach h a b n : forallb edit h = true -> keq n a = false -> keq n b = false ->
    (forall p q, reach h p q -> reach (h ++ block a b n) p q) /\ reach (h ++ block a b n) n a.
  Proof.
    intros Hed Ha Hb.
    assert (Hed' : forallb edit (h ++ block a b n) = true) by (rewrite forallb_app, Hed; reflexivity).
    assert (Rna : reach (h ++ block a b n) n a).
    { assert (X : exists c, g2_edge keq dc (h ++ block a b n) n a = Some c).
      { rewrite block_edges, (ksym a n), (ksym b n), Ha, Hb, !krefl. simpl.
        destruct (keq b a); rewrite ?orb_true_r; simpl; eauto. }
      destruct X as [c X]. eapply reach_step; [exact X|apply reach_refl, krefl]. }
    assert (Rnb : reach (h ++ block a b n) n b).
    { assert (X : exists c, g2_edge keq dc (h ++ block a b n) n b = Some c).
      { rewrite block_edges, (ksym a n), (ksym b n), Ha, Hb, !krefl. simpl. eauto. }
      destruct X as [c X]. eapply reach_step; [exact X|apply reach_refl, krefl]. }
    assert (Sy := reach_sym (h ++ block a b n)). 
    assert (Rab : reach (h ++ block a b n) a b).
    { apply (reach_trans _ _ n); auto. apply Sy; auto. apply edge_sym; auto. }
    split; auto. intros p q H. induction H as [p q Hpq|p q r c He Hr IH]; [apply reach_refl; auto|].
    assert (Epq : g2_edge keq dc (h ++ block a b n) p q = None -> keq a p && keq b q || keq b p && keq a q = true).
    { rewrite block_edges. destruct (keq a p && keq b q || keq b p && keq a q); auto.
      destruct (_ || _); [discriminate|]. destruct (_ || _); [discriminate|]. congruence. }
    destruct (g2_edge keq dc (h ++ block a b n) p q) as [c'|] eqn:E; [eapply reach_step; eauto|].
    specialize (Epq eq_refl). apply (reach_trans _ _ q); auto.
    apply orb_true_iff in Epq. destruct Epq as [X|X]; apply andb_true_iff in X; destruct X as [X Y].
    - eapply reach_congr; [exact X|exact Y|auto].
    - eapply reach_congr; [exact X|exact Y|]. apply Sy; auto. apply edge_sym; auto.
  Qed.

  (** ** Building histories *)
  Definition built (h : list (g2op P)) (g : graph2d P) : Prop := g2_run keq dc h = Ok g /\ forallb edit h = true.

  Lemma built_app h g h' g' : built h g -> foldM (g2_run_op keq dc) h' g = Ok g' -> forallb edit h' = true -> built (h ++ h') g'.
  Proof.
    intros [H1 H2] H3 H4. split; [|rewrite forallb_app, H2; auto]. unfold g2_run in *. rewrite foldM_app, H1. exact H3.
  Qed.

  Lemma inserted_app h h' : inserted (P := P) (h ++ h') = inserted h ++ inserted h'.
  Proof. apply flat_map_app. Qed.

  Lemma block_run h pts g h' a b n : linked keq dc h pts g h' -> exists g', foldM (g2_run_op keq dc) (block a b n) g = Ok g' /\
    g2_removeEdge keq (g2_addEdge_dist keq dc (g2_addEdge_dist keq dc g a n) n b) a b = Ok g'.
  Proof.
    intro HL.
    set (g2 := g2_addEdge_dist keq dc (g2_addEdge_dist keq dc g a n) n b).
    assert (X : exists g', g2_removeEdge keq g2 a b = Ok g').
    { assert (E : foldM (g2_run_op keq dc) [G2AddDist a n; G2AddDist n b] g = Ok g2) by reflexivity.
      destruct (linked_mono keq dc Heq _ _ _ _ _ _ HL E) as (t & h2 & HL2).
      destruct HL2 as (HR & _ & _ & _ & H5 & _). unfold g2_removeEdge, g2_removeDirectedEdge.
      assert (Hx : forall x, In x [a; n; n; b] -> exists k, pidx keq x (pts ++ t) = Some k).
      { intros x Hx. apply H5. exists x. split; auto. rewrite inserted_app. apply in_or_app. right. exact Hx. }
      destruct (Hx a) as [ka Ka]; [simpl; auto|]. destruct (Hx b) as [kb Kb]; [simpl; auto|].
      rewrite !(nodeToIndex_rep keq _ _ _ HR), Ka, Kb. cbn [bind]. unfold g2_nodeToIndex. simpl.
      assert (N : forall x, g2_nodeToIndex keq g2 x = match n2i_find keq x (g2_n2i g2) with Some k => Ok k | None => Throw OutOfRange end) by reflexivity.
      rewrite <- !N, !(nodeToIndex_rep keq _ _ _ HR), Ka, Kb. simpl. eauto. }
    destruct X as [g' X]. exists g'. split; auto. simpl. unfold g2 in X. rewrite X. auto.
  Qed.

  (** ** Splitting *)
  Lemma n2i_incl h g : g2_run keq dc h = Ok g -> forallb edit h = true -> incl (map fst (g2_n2i g)) (inserted h).
  Proof.
    revert g. induction h as [|o h IH] using rev_ind; intros g E Hed.
    - unfold g2_run in E. simpl in E. assert (g = g2_empty) by congruence. subst. intros x [].
    - rewrite forallb_app in Hed. apply andb_true_iff in Hed. destruct Hed as [Hed Ho]. simpl in Ho.
      unfold g2_run in E. rewrite foldM_app in E. bok E. rename r into g1. rename E0 into E1.
      simpl in E. bok E. assert (r = g) by congruence. subst r.
      specialize (IH g1 E1 Hed). rewrite inserted_app.
      assert (Hi : forall p m x, In x (map fst (fst (n2i_insert keq p m))) -> In x (map fst m) \/ x = p).
      { intros p m x. unfold n2i_insert. destruct (n2i_find keq p m); simpl; auto.
        rewrite map_app. intro H. apply in_app_or in H. destruct H as [|[<-|[]]]; auto. }
      assert (Hd : forall gg a b c x, In x (map fst (g2_n2i (g2_addDirectedEdge keq gg a b c))) -> In x (map fst (g2_n2i gg)) \/ x = a \/ x = b).
      { intros gg a b c x. unfold g2_addDirectedEdge. specialize (Hi a (g2_n2i gg)) as H1.
        destruct (n2i_insert keq a (g2_n2i gg)) as [m1 p1]. specialize (Hi b m1) as H2.
        destruct (n2i_insert keq b m1) as [m2 p2]. simpl in *. intro H. apply H2 in H. destruct H as [H|H]; auto.
        apply H1 in H. destruct H; auto. }
      intros x Hx. apply in_or_app. destruct o; simpl in Ho; try discriminate.
      + simpl in E0. assert (g = g2_addEdge_dist keq dc g1 i j) by congruence. subst g.
        unfold g2_addEdge_dist, g2_addEdge in Hx. apply Hd in Hx. simpl.
        destruct Hx as [Hx|Hx]; [|right; intuition]. apply Hd in Hx. destruct Hx as [Hx|Hx]; [left; apply IH; auto|]. right. intuition.
      + left. apply IH. simpl in E0. unfold g2_removeEdge, g2_removeDirectedEdge in E0. bok E0. bok E2. bok E2. bok E0. bok E0.
        assert (g = {| g2_graph := removeDirectedEdge (g2_graph r) r2 r3; g2_n2i := g2_n2i r; g2_i2n := g2_i2n r |}) by congruence. subst g.
        assert (r = {| g2_graph := removeDirectedEdge (g2_graph g1) r0 r1; g2_n2i := g2_n2i g1; g2_i2n := g2_i2n g1 |}) by congruence. subst r. exact Hx.
  Qed.

  Lemma linked_pts h pts g h' : linked keq dc h pts g h' -> map fst (g2_n2i g) = pts.
  Proof.
    intros ((H1 & _) & _). rewrite H1. unfold N2I. clear. generalize 0.
    induction pts as [|p pts IH]; intro n; simpl; auto. rewrite IH. auto.
  Qed.

  Lemma nth_inserted h pts g h' k p : linked keq dc h pts g h' -> g2_run keq dc h = Ok g -> forallb edit h = true ->
    nth_error pts k = Some p -> In p (inserted h).
  Proof.
    intros HL R Hed Hk. apply (n2i_incl h g R Hed). rewrite (linked_pts _ _ _ _ HL). eapply nth_error_In; eauto.
  Qed.

  (** What a batch of splits adds. *)
  Definition grown (h h2 : list (g2op P)) : Prop :=
    (forall p q, reach h p q -> reach (h ++ h2) p q) /\ incl (inserted h2) (inserted h).

  Lemma grown_nil h : grown h [].
  Proof. split; [rewrite app_nil_r; auto|apply incl_nil_l]. Qed.

  Lemma grown_app h h2 h3 : grown h h2 -> grown (h ++ h2) h3 -> grown h (h2 ++ h3).
  Proof.
    intros [A1 A2] [B1 B2]. split; [intros; rewrite app_assoc; auto|].
    intros p Hp. rewrite inserted_app in Hp. apply in_app_or in Hp. destruct Hp as [Hp|Hp]; auto.
    apply B2 in Hp. rewrite inserted_app in Hp. apply in_app_or in Hp. destruct Hp; auto.
  Qed.

  (** Added edges satisfy a given relation. *)
  Section Seg.
  Variable S : P -> P -> Prop.
  Variable N : P -> Prop.
  Hypothesis S_sym : forall a b, S a b -> S b a.
  Hypothesis S_keq : forall a b a' b', S a b -> keq a a' = true -> keq b b' = true -> S a' b'.
  Hypothesis S_part : forall a b n, S a b -> N n -> keq n a = false -> keq n b = false -> near a b n = true -> S a n.
  Hypothesis near_swap : forall a b n, near a b n = near b a n.
  Definition segs (h : list (g2op P)) : Prop := forall a b, In (G2AddDist a b) h -> S a b.

  Lemma segs_app h h2 : segs h -> segs h2 -> segs (h ++ h2).
  Proof. intros H1 H2 a b H. apply in_app_or in H. destruct H; auto. Qed.

  Lemma segs_edge h p q c : forallb edit h = true -> segs h -> g2_edge keq dc h p q = Some c -> S p q.
  Proof.
    induction h as [|o h IH] using rev_ind; intros Hed Hs; [discriminate|].
    rewrite forallb_app in Hed. apply andb_true_iff in Hed. destruct Hed as [Hed Ho]. simpl in Ho.
    assert (Hs1 : segs h) by (intros a b H; apply Hs, in_or_app; auto).
    rewrite edge_snoc. destruct o; simpl in Ho; try discriminate; simpl.
    - assert (Sij : S i j) by (apply Hs, in_or_app; right; left; auto).
      destruct (keq i p && keq j q || keq j p && keq i q) eqn:E; auto. intros _.
      apply orb_true_iff in E. destruct E as [E|E]; apply andb_true_iff in E; destruct E as [E1 E2]; eauto.
    - destruct (keq i p && keq j q || keq j p && keq i q); [discriminate|]. auto.
  Qed.

  Lemma split_nodes a b : S a b -> forall nodes h pts g h', linked keq dc h pts g h' -> forallb edit h = true ->
    In a (inserted h) -> In b (inserted h) -> incl nodes (inserted h) -> Forall N nodes ->
    exists h2 g', foldM (fun g n =>
        if negb (keq n a) && negb (keq n b) && near a b n then
          g2_removeEdge keq (g2_addEdge_dist keq dc (g2_addEdge_dist keq dc g a n) n b) a b
        else Ok g) nodes g = Ok g' /\
      foldM (g2_run_op keq dc) h2 g = Ok g' /\ forallb edit h2 = true /\ segs h2 /\ grown h h2 /\
      (forall n, In n nodes -> keq n a = false -> keq n b = false -> near a b n = true -> reach (h ++ h2) n a).
  Proof.
    intro Sab. induction nodes as [|n nodes IH]; intros h pts g h' HL Hed Ha Hb Hn HN.
    - exists [], g. simpl. split; auto. split; auto. split; auto. split; [intros ? ? []|]. split; [apply grown_nil|]. intros ? [].
    - cbn [foldM]. destruct (negb (keq n a) && negb (keq n b) && near a b n) eqn:E.
      + apply andb_true_iff in E. destruct E as [E E3]. apply andb_true_iff in E. destruct E as [E1 E2].
        apply negb_true_iff in E1, E2.
        destruct (block_run _ _ _ _ a b n HL) as (g1 & R1 & R2). rewrite R2. cbn [bind].
        destruct (linked_mono keq dc Heq _ _ _ _ _ _ HL R1) as (t & h1' & HL1).
        assert (K : incl (inserted h) (inserted (h ++ block a b n))).
        { rewrite inserted_app. apply incl_appl, incl_refl. }
        destruct (block_reach h a b n Hed E1 E2) as [Rm Rn].
        destruct (IH _ _ _ _ HL1) as (h2 & g' & F1 & F2 & F3 & F3' & F4 & F5); auto.
        { rewrite forallb_app, Hed. auto. }
        { intros x Hx. apply K, Hn. right; auto. }
        { inversion HN; auto. }
        exists (block a b n ++ h2), g'. split; auto. split; [rewrite foldM_app, R1; auto|].
        split; [rewrite forallb_app, F3; auto|]. split.
        { apply segs_app; auto. assert (Nn : N n) by (inversion HN; auto).
          intros x y [H|[H|[H|[]]]]; [| |discriminate].
          - assert (x = a /\ y = n) as [-> ->] by (split; congruence). apply (S_part a b n); auto.
          - assert (x = n /\ y = b) as [-> ->] by (split; congruence). apply S_sym, (S_part b a n); auto. rewrite near_swap. auto. }
        split.
        { apply grown_app; auto. split; auto. unfold block, inserted. simpl.
          intros p Hp. destruct Hp as [<-|[<-|[<-|[<-|[]]]]]; auto; apply Hn; left; auto. }
        intros x [<-|Hx]; intros; rewrite app_assoc; [|apply F5; auto]. apply F4. auto.
      + cbn [bind]. destruct (IH _ _ _ _ HL) as (h2 & g' & F1 & F2 & F3 & F3' & F4 & F5); auto.
        { intros x Hx. apply Hn. right; auto. }
        { inversion HN; auto. }
        exists h2, g'. split; auto. split; auto. split; auto. split; auto. split; auto.
        intros x [<-|Hx] X1 X2 X3; [|auto]. rewrite X1, X2, X3 in E. discriminate.
  Qed.

  Lemma split_pairs nodes : forall prs h pts g h', linked keq dc h pts g h' -> g2_run keq dc h = Ok g -> forallb edit h = true ->
    incl nodes (inserted h) -> Forall N nodes ->
    (forall i j a b, In (i, j) prs -> nth_error pts i = Some a -> nth_error pts j = Some b -> S a b) -> (forall ft, In ft prs -> fst ft < length pts /\ snd ft < length pts) ->
    exists h2 g', foldM (split_edge keq dc near nodes) prs g = Ok g' /\
      foldM (g2_run_op keq dc) h2 g = Ok g' /\ forallb edit h2 = true /\ segs h2 /\ grown h h2 /\
      (forall i j a b n, In (i, j) prs -> nth_error pts i = Some a -> nth_error pts j = Some b ->
         In n nodes -> keq n a = false -> keq n b = false -> near a b n = true -> reach (h ++ h2) n a).
  Proof.
    induction prs as [|[i j] prs IH]; intros h pts g h' HL R Hed Hn HN HS Hp.
    - exists [], g. simpl. split; auto. split; auto. split; auto. split; [intros ? ? []|]. split; [apply grown_nil|]. intros ? ? ? ? ? [].
    - destruct (Hp (i, j)) as [Hi Hj]; [left; auto|]. simpl in Hi, Hj.
      destruct (nth_error pts i) as [a|] eqn:Ei; [|apply nth_error_None in Ei; lia].
      destruct (nth_error pts j) as [b|] eqn:Ej; [|apply nth_error_None in Ej; lia].
      cbn [foldM]. unfold split_edge at 1. cbn [fst snd].
      rewrite !(indexToNode_rep keq _ _ _ (proj1 HL)), Ei, Ej. cbn [bind].
      assert (Sab : S a b) by (apply (HS i j); auto; left; auto).
      destruct (split_nodes a b Sab nodes h pts g h' HL Hed) as (h2 & g1 & F1 & F2 & F3 & F3' & F4 & F5); auto;
        try (eapply nth_inserted; eauto; fail). rewrite F1. cbn [bind].
      destruct (linked_mono keq dc Heq _ _ _ _ _ _ HL F2) as (t & h1' & HL1).
      destruct (IH _ _ _ _ HL1) as (h3 & g' & G1 & G2 & G3 & G3' & G4 & G5).
      { unfold g2_run in *. rewrite foldM_app, R. exact F2. }
      { rewrite forallb_app, Hed. auto. }
      { rewrite inserted_app. apply incl_appl, Hn. }
      { auto. }
      { intros i' j' a' b' Hij Hi' Hj'. destruct (Hp (i', j')) as [Li Lj]; [right; auto|]. simpl in Li, Lj.
        rewrite nth_error_app1 in Hi', Hj' by auto. apply (HS i' j'); auto. right; auto. }
      { intros ft Hft. rewrite app_length. destruct (Hp ft); [right; auto|lia]. }
      exists (h2 ++ h3), g'. split; auto. split; [rewrite foldM_app, F2; auto|].
      split; [rewrite forallb_app, F3; auto|]. split; [apply segs_app; auto|]. split; [apply grown_app; auto|].
      intros i' j' a' b' n [Hij|Hij] Hi' Hj' Hin X1 X2 X3; rewrite app_assoc.
      + assert (i' = i /\ j' = j) as [-> ->] by (split; congruence).
        assert (a' = a /\ b' = b) as [-> ->] by (split; congruence). apply G4. apply F5; auto.
      + eapply (G5 i' j' a' b' n); eauto; apply nth_prefix; auto.
  Qed.

  Lemma in_edge_pairs e i j : In (i, j) (edge_pairs e) <-> exists c, edge_in e i j c.
  Proof.
    unfold edge_pairs. rewrite in_flat_map. split.
    - intros ([i' m] & Hin & H). apply in_map_iff in H. destruct H as ([j' c] & E & H). simpl in *.
      assert (i' = i /\ j' = j) as [-> ->] by (split; congruence). exists c, m. auto.
    - intros (c & m & H1 & H2). exists (i, m). split; auto. apply in_map_iff. exists (j, c). auto.
  Qed.

  Lemma split_pass_ok nodes h pts g h' : linked keq dc h pts g h' -> g2_run keq dc h = Ok g -> forallb edit h = true ->
    incl nodes (inserted h) -> Forall N nodes -> segs h ->
    exists h2 g', split_pass keq dc near edge_order nodes g = Ok g' /\
      foldM (g2_run_op keq dc) h2 g = Ok g' /\ forallb edit h2 = true /\ segs h2 /\ grown h h2 /\
      (forall a b n, g2_edge keq dc h a b <> None -> (exists n', In n' nodes /\ keq n' n = true) ->
         near a b n = true -> reach (h ++ h2) n a).
  Proof.
    intros HL R Hed Hn HN Hs. unfold split_pass.
    destruct (split_pairs nodes (edge_order (g_edges (g2_graph g))) h pts g h' HL R Hed Hn HN) as (h2 & g' & F1 & F2 & F3 & F3' & F4 & F5).
    { intros i j a b Hin Hi Hj. eapply Permutation_in in Hin; [|apply Hedges]. apply in_edge_pairs in Hin. destruct Hin as [c Hc].
      apply (l_look keq dc _ _ _ _ HL) in Hc. apply (l_edge_pts keq dc _ _ _ _ HL) in Hc.
      destruct Hc as (p & q & Hi' & Hj' & He). assert (p = a /\ q = b) as [-> ->] by (split; congruence). eapply segs_edge; eauto. }
    { intros [i j] Hin. eapply Permutation_in in Hin; [|apply Hedges]. apply in_edge_pairs in Hin. destruct Hin as [c Hc].
      apply (l_look keq dc _ _ _ _ HL) in Hc. apply (l_edge_pts keq dc _ _ _ _ HL) in Hc.
      destruct Hc as (p & q & Hi & Hj & _). simpl. split; apply nth_error_Some; congruence. }
    exists h2, g'. split; auto. split; auto. split; auto. split; auto. split; auto.
    intros a b n Hab (n' & Hin & Kn) Hnr. destruct (g2_edge keq dc h a b) as [c|] eqn:Ec; [|congruence].
    destruct (l_edge_idx keq dc Heq _ _ _ _ HL _ _ _ Ec) as (i & j & Hi & Hj & Hl).
    apply pidx_Some in Hi, Hj. destruct Hi as (a' & Hi & Ka), Hj as (b' & Hj & Kb).
    apply (l_look keq dc _ _ _ _ HL) in Hl.
    assert (Hpr : In (i, j) (edge_order (g_edges (g2_graph g)))).
    { eapply Permutation_in; [symmetry; apply Hedges|]. apply in_edge_pairs. eauto. }
    apply (reach_congr _ n' n a' a); auto.
    destruct (keq n' a') eqn:E1; [apply reach_refl; auto|].
    destruct (keq n' b') eqn:E2.
    - apply (proj1 F4). apply reach_sym; [apply edge_sym; auto|].
      apply (reach_step _ _ b' _ c); [|apply reach_refl; rewrite ksym; auto].
      rewrite <- Ec. apply (g2_edge_congr keq dc Heq); auto.
    - apply (F5 i j a' b' n'); auto. rewrite <- Hnr. apply Hnear; auto.
  Qed.
  End Seg.

  (** ** Edges before splitting *)
  Variables (rse : option P) (rings : list (list P)) (ss : list swath).
  Notation base := (base p_default closest rse rings ss).
  Notation joined := (joined keq p_default closest near rse rings ss).

  Notation segment := (segment keq p_default closest near rse rings ss).

  Definition base_op (o : g2op P) : Prop := exists a b, o = G2AddDist a b /\ base a b.

  Lemma base_ops_edit h : Forall base_op h -> forallb edit h = true.
  Proof. intro H. induction H as [|o h (a & b & -> & _) _ IH]; auto. Qed.

  Lemma base_ops_edge h a b : Forall base_op h -> In (G2AddDist a b) h -> g2_edge keq dc h a b <> None.
  Proof.
    induction h as [|o h IH] using rev_ind; intros HF Hin; [destruct Hin|].
    apply Forall_app in HF. destruct HF as [HF Ho]. rewrite edge_snoc. apply in_app_or in Hin.
    destruct Hin as [Hin|[->|[]]].
    - specialize (IH HF Hin). inversion Ho as [|? ? (x & y & -> & _) _]. subst. simpl.
      destruct (keq x a && keq y b || keq y a && keq x b); [discriminate|auto].
    - simpl. rewrite !krefl. discriminate.
  Qed.

  Lemma stubs_ok : (forall s, In s ss -> (exists c, closest (first_pt p_default s) = Ok c) /\ (exists c, closest (last_pt p_default s) = Ok c)) ->
    forall l g, incl l ss -> exists h g', add_stubs p_default keq dc closest g l = Ok g' /\
      foldM (g2_run_op keq dc) h g = Ok g' /\ Forall base_op h /\ length h = 2 * length l /\
      (forall s c, In s l -> closest (first_pt p_default s) = Ok c -> In (G2AddDist (first_pt p_default s) c) h) /\
      (forall s c, In s l -> closest (last_pt p_default s) = Ok c -> In (G2AddDist (last_pt p_default s) c) h).
  Proof.
    intro Hc. induction l as [|s l IH]; intros g Hl.
    - exists [], g. simpl. repeat split; auto; intros ? ? [].
    - destruct (Hc s) as ((c1 & C1) & (c2 & C2)); [apply Hl; left; auto|].
      unfold add_stubs. cbn [foldM]. rewrite start_first, stop_last, C1, C2. cbn [bind].
      destruct (IH (g2_addEdge_dist keq dc (g2_addEdge_dist keq dc g (first_pt p_default s) c1) (last_pt p_default s) c2)) as (h & g' & F1 & F2 & F3 & F4 & F5 & F6).
      { intros x Hx. apply Hl. right; auto. }
      exists (G2AddDist (first_pt p_default s) c1 :: G2AddDist (last_pt p_default s) c2 :: h), g'.
      split; [exact F1|]. split; [exact F2|]. split.
      { constructor; [|constructor; auto].
        - exists (first_pt p_default s), c1. split; auto. apply base_first; auto. apply Hl; left; auto.
        - exists (last_pt p_default s), c2. split; auto. apply base_last; auto. apply Hl; left; auto. }
      split; [simpl; lia|]. split; intros s' c [<-|Hs] E; simpl.
      + left. congruence.
      + right. right. auto.
      + right. left. congruence.
      + right. right. auto.
  Qed.

  Fixpoint ring_ops (ring : list P) : list (g2op P) :=
    match ring with
    | a :: ((b :: _) as t) => G2AddDist a b :: ring_ops t
    | _ => []
    end.

  Lemma ring_ops_run ring : forall g, foldM (g2_run_op keq dc) (ring_ops ring) g = Ok (ring_edges keq dc g ring).
  Proof.
    induction ring as [|a [|b t] IH]; intro g; auto.
    change (ring_ops (a :: b :: t)) with (G2AddDist a b :: ring_ops (b :: t)). cbn [foldM g2_run_op bind]. rewrite IH. auto.
  Qed.

  Lemma ring_ops_in ring a b : In (G2AddDist a b) (ring_ops ring) <-> exists i, nth_error ring i = Some a /\ nth_error ring (S i) = Some b.
  Proof.
    induction ring as [|x [|y t] IH].
    - split; [intros []|intros (i & H & _); destruct i; discriminate].
    - split; [intros []|]. intros ([|[|i]] & H1 & H2); simpl in *; discriminate.
    - change (ring_ops (x :: y :: t)) with (G2AddDist x y :: ring_ops (y :: t)). split.
      + intros [H|H].
        * exists 0. simpl. split; congruence.
        * apply IH in H. destruct H as (i & H1 & H2). exists (S i). auto.
      + intros ([|i] & H1 & H2).
        * simpl in *. left. congruence.
        * right. apply IH. exists i. auto.
  Qed.

  Lemma ring_ops_shape ring o : In o (ring_ops ring) -> exists a b, o = G2AddDist a b.
  Proof.
    induction ring as [|x [|y t] IH]; try (intros []; fail).
    change (ring_ops (x :: y :: t)) with (G2AddDist x y :: ring_ops (y :: t)). intros [<-|H]; eauto.
  Qed.

  Lemma ring_ops_length ring : length (ring_ops ring) <= length ring.
  Proof.
    induction ring as [|x [|y t] IH]; simpl; auto.
    change (length (ring_ops (y :: t)) <= length (y :: t)) in IH. simpl in IH |- *. lia.
  Qed.

  Lemma rings_ok : forall l g, incl l rings -> (forall ring, In ring l -> ring <> []) ->
    exists h g', add_rings keq dc g l = Ok g' /\ foldM (g2_run_op keq dc) h g = Ok g' /\ Forall base_op h /\
      length h <= length (concat l) /\
      (forall ring i a b, In ring l -> nth_error ring i = Some a -> nth_error ring (S i) = Some b -> In (G2AddDist a b) h).
  Proof.
    induction l as [|ring l IH]; intros g Hl Hne.
    - exists [], g. simpl. repeat split; auto.
    - destruct (IH (ring_edges keq dc g ring)) as (h & g' & F1 & F2 & F3 & F4 & F5).
      { intros x Hx. apply Hl. right; auto. }
      { intros x Hx. apply Hne. right; auto. }
      exists (ring_ops ring ++ h), g'. split.
      { unfold add_rings. cbn [foldM]. assert (Hr : ring <> []) by (apply Hne; left; auto).
        destruct ring; [congruence|]. cbn [bind]. exact F1. }
      split; [rewrite foldM_app, ring_ops_run; exact F2|]. split.
      { apply Forall_app. split; auto. apply Forall_forall. intros o Ho. destruct (ring_ops_shape ring o Ho) as (a & b & ->).
        exists a, b. split; auto. apply ring_ops_in in Ho. destruct Ho as (i & H1 & H2).
        apply (base_ring p_default closest rse rings ss ring i); auto. apply Hl; left; auto. }
      split.
      { simpl. rewrite !app_length. pose proof (ring_ops_length ring). lia. }
      intros r i a b [<-|Hr] H1 H2; apply in_or_app.
      + left. apply ring_ops_in. eauto.
      + right. eapply F5; eauto.
  Qed.

  (** ** The whole graph *)
  Definition base_pt (p : P) : Prop := exists q, base p q \/ base q p.
  Definition capacity : nat := 2 * (2 * length ss + length (concat rings) + 1).

  Lemma graph_ok sbc : (forall a b n, near a b n = near b a n) -> ss = concat sbc ->
    (forall s, In s ss -> (exists c, closest (first_pt p_default s) = Ok c) /\ (exists c, closest (last_pt p_default s) = Ok c)) ->
    (forall p, rse = Some p -> exists c, closest p = Ok c) ->
    (forall ring, In ring rings -> ring <> []) ->
    exists h0 h g, createShortestGraph p_default keq dc closest near node_order edge_order rse rings sbc = Ok g /\
      g2_run keq dc (h0 ++ h) = Ok g /\ Forall base_op h0 /\ forallb edit h = true /\ length (inserted h0) <= capacity /\
      (forall a b, base a b -> In (G2AddDist a b) h0) /\
      grown h0 h /\ segs segment (h0 ++ h) /\ (forall p q, joined p q -> reach (h0 ++ h) p q).
  Proof.
    intros near_swap Ess Hc1 Hc2 Hr.
    destruct (stubs_ok Hc1 ss g2_empty (incl_refl _)) as (h1 & g1 & A1 & A2 & A3 & A4 & A5 & A6).
    destruct (rings_ok rings g1 (incl_refl _) Hr) as (h2 & g2 & B1 & B2 & B3 & B4 & B5).
    assert (C : exists h3 g3, match rse with Some p => do c <- closest p; Ok (g2_addEdge_dist keq dc g2 p c) | None => Ok g2 end = Ok g3 /\
      foldM (g2_run_op keq dc) h3 g2 = Ok g3 /\ Forall base_op h3 /\ length h3 <= 1 /\
      (forall p c, rse = Some p -> closest p = Ok c -> In (G2AddDist p c) h3)).
    { assert (Hcase : (exists p, rse = Some p) \/ rse = None) by (generalize rse; intros [p|]; eauto).
      destruct Hcase as [[p Ep]|Ep]; rewrite Ep.
      - destruct (Hc2 p Ep) as [c Hc]. rewrite Hc. cbn [bind]. exists [G2AddDist p c], (g2_addEdge_dist keq dc g2 p c).
        split; auto. split; auto. split.
        { constructor; auto. exists p, c. split; auto. apply base_start_end; auto. }
        split; auto. intros p' c' E1 E2. left. congruence.
      - exists [], g2. repeat split; auto. intros; discriminate. }
    destruct C as (h3 & g3 & C1 & C2 & C3 & C4 & C5).
    set (h0 := h1 ++ h2 ++ h3).
    assert (HF : Forall base_op h0) by (unfold h0; rewrite !Forall_app; auto).
    assert (Hed : forallb edit h0 = true) by (apply base_ops_edit; auto).
    assert (R0 : g2_run keq dc h0 = Ok g3).
    { unfold g2_run, h0. rewrite foldM_app, A2. cbn [bind]. rewrite foldM_app, B2. exact C2. }
    destruct (linked_run keq dc Heq h0 g3 R0) as (pts & h' & HL).
    set (nodes := node_order (g2_getNodes g3)).
    assert (Hn : incl nodes (inserted h0)).
    { intros n Hin. eapply Permutation_in in Hin; [|apply Hnodes].
      apply (n2i_incl h0 g3 R0 Hed). exact Hin. }
    assert (HN : Forall base_pt nodes).
    { apply Forall_forall. intros n Hin. apply Hn in Hin. apply in_flat_map in Hin. destruct Hin as (o & Ho & Hin).
      rewrite Forall_forall in HF. destruct (HF o Ho) as (a & b & -> & Hb). simpl in Hin.
      destruct Hin as [<-|[<-|[]]]; [exists b|exists a]; auto. }
    assert (S1 : forall a b, segment a b -> segment b a) by (intros; apply seg_sym; auto).
    assert (S2 : forall a b a' b', segment a b -> keq a a' = true -> keq b b' = true -> segment a' b')
      by (intros; eapply seg_same; eauto).
    assert (S3 : forall a b n, segment a b -> base_pt n -> keq n a = false -> keq n b = false -> near a b n = true -> segment a n).
    { intros a b n Hs (m & Hm) X1 X2 X3. eapply seg_part; eauto. }
    assert (Hs0 : segs segment h0).
    { intros a b Hin. rewrite Forall_forall in HF. destruct (HF _ Hin) as (x & y & E & Hb).
      assert (x = a /\ y = b) as [-> ->] by (split; congruence). apply seg_base; auto. }
    destruct (split_pass_ok segment base_pt S1 S2 S3 near_swap nodes h0 pts g3 h' HL R0 Hed Hn HN Hs0) as (h4 & g4 & D1 & D2 & D3 & D3' & D4 & D5).
    destruct (linked_mono keq dc Heq _ _ _ _ _ _ HL D2) as (t & h4' & HL4).
    destruct (split_pass_ok segment base_pt S1 S2 S3 near_swap nodes (h0 ++ h4) _ g4 h4' HL4) as (h5 & g5 & E1 & E2 & E3 & E3' & E4 & _).
    { unfold g2_run in *. rewrite foldM_app, R0. exact D2. }
    { rewrite forallb_app, Hed. auto. }
    { rewrite inserted_app. apply incl_appl, Hn. }
    { auto. }
    { apply segs_app; auto. }
    assert (Hbase : forall a b, base a b -> In (G2AddDist a b) h0).
    { intros a b Hb. unfold h0. rewrite !in_app_iff. destruct Hb; eauto. }
    exists h0, (h4 ++ h5), g5. split.
    { unfold createShortestGraph. rewrite <- Ess, A1. cbn [bind]. rewrite B1. cbn [bind]. rewrite C1. cbn [bind].
      fold nodes. rewrite D1. cbn [bind]. exact E1. }
    split.
    { unfold g2_run in *. rewrite foldM_app, R0. cbn [bind]. rewrite foldM_app, D2. exact E2. }
    split; auto. split; [rewrite forallb_app, D3; auto|]. split.
    { assert (L : length (inserted h0) = 2 * length h0).
      { clear - HF. induction HF as [|o h (a & b & -> & _) _ IH]; auto. unfold inserted in *. cbn [flat_map op_points].
        rewrite app_length, IH. simpl. lia. }
      rewrite L. unfold h0, capacity. rewrite !app_length, A4. lia. }
    split; auto. split; [apply grown_app; auto|]. split; [apply segs_app; auto; apply segs_app; auto|].
    assert (Hall : forallb edit (h0 ++ h4 ++ h5) = true) by (rewrite !forallb_app, Hed, D3, E3; auto).
    intros p q J. induction J as [p q Hpq|a b Hb|a b n m Hb Hm Hnr|p q _ IH|p q r _ IH1 _ IH2].
    - apply reach_refl; auto.
    - rewrite app_assoc. apply E4, D4. destruct (g2_edge keq dc h0 a b) as [c|] eqn:E.
      + apply (reach_step _ _ b _ c); auto. apply reach_refl, krefl.
      + exfalso. revert E. apply base_ops_edge; auto.
    - rewrite app_assoc. apply E4. apply (D5 a b n); auto.
      + apply base_ops_edge; auto.
      + assert (Hk : exists q, In q (inserted h0) /\ keq q n = true).
        { exists n. split; auto. apply in_flat_map. destruct Hm as [Hm|Hm]; apply Hbase in Hm; eexists; split; try exact Hm; simpl; auto. }
        pose proof HL as (_ & _ & _ & _ & L5 & _). apply L5 in Hk. destruct Hk as [k Hk].
        apply pidx_Some in Hk. destruct Hk as (n' & Hk & Kn). exists n'. split; auto.
        unfold nodes. eapply Permutation_in; [symmetry; apply Hnodes|]. unfold g2_getNodes.
        rewrite (linked_pts h0 pts g3 h' HL). eapply nth_error_In; eauto.
    - apply reach_sym; auto. apply edge_sym; auto.
    - eapply reach_trans; eauto.
  Qed.
End Shortest.
