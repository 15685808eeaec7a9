(** Shortest paths over points, for graphs built from two-way edges. *)
From Coq Require Import List Arith ZArith Lia Bool.
From Verif Require Import Outcome ListAux Graph_Model Graph_Spec Graph_Proofs Graph_Proofs2
  Graph_Proofs3 Graph_Proofs4 Graph_Props Graph2D_Model Graph2D_Spec Graph2D_Proofs.
Import ListNotations.

Section Proofs.
  Context {P : Type}.
  Variable keq : P -> P -> bool.
  Variable dist_cost : P -> P -> Z.
  Hypothesis Heq : equivalence keq.

  Let krefl := proj1 Heq.
  Let ksym := proj1 (proj2 Heq).
  Let ktrans := proj2 (proj2 Heq).

  Lemma keq_congr p p' x : keq p p' = true -> keq x p = keq x p'.
  Proof.
    intro H. destruct (keq x p) eqn:E1, (keq x p') eqn:E2; auto.
    - assert (keq x p' = true) by (apply (ktrans x p p'); auto). congruence.
    - assert (keq x p = true) by (apply (ktrans x p' p); auto; rewrite ksym; auto). congruence.
  Qed.

  Lemma g2_edge_congr h p q p' q' : keq p p' = true -> keq q q' = true ->
    g2_edge keq dist_cost h p q = g2_edge keq dist_cost h p' q'.
  Proof.
    intros Hp Hq. unfold g2_edge.
    assert (G : forall l old, fold_left (fun old o => g2op_cost keq dist_cost p q o old) l old =
      fold_left (fun old o => g2op_cost keq dist_cost p' q' o old) l old).
    { induction l as [|o l IH]; intro old; simpl; auto. rewrite IH. f_equal.
      assert (C : forall a b, keq a p && keq b q = keq a p' && keq b q').
      { intros. rewrite (keq_congr _ _ a Hp), (keq_congr _ _ b Hq). auto. }
      destruct o; simpl; rewrite ?C; auto. }
    apply G.
  Qed.

  Section Linked.
    Variables (h : list (g2op P)) (pts : list P) (g : graph2d P) (h' : list gop).
    Hypothesis HL : linked keq dist_cost h pts g h'.
    Hypothesis HU : forallb two_way h = true.

    Let e := g_edges (g2_graph g).

    Lemma l_unique : keys_unique e.
    Proof. destruct HL as (_ & H2 & _). eapply hist_unique; eauto. Qed.

    Lemma l_length : length e = length pts.
    Proof.
      destruct HL as (_ & _ & _ & _ & _ & _ & H7 & H8). pose proof (H7 HU) as H9.
      pose proof l_unique as [Hn _].
      assert (length (map fst e) = length (seq 0 (length pts))); [|rewrite map_length, seq_length in *; auto].
      apply Nat.le_antisymm.
      - apply NoDup_incl_length; auto. intros i Hi. apply in_map_iff in Hi. destruct Hi as ([i' m] & <- & Hi).
        apply in_seq. apply H8 in Hi. simpl. lia.
      - apply NoDup_incl_length; [apply seq_NoDup|]. intros i Hi. apply in_seq in Hi.
        assert (Hf : am_find i e <> None) by (apply H9; lia).
        apply find_edges_in in Hf. destruct Hf as [m Hm]. apply in_map_iff. exists (i, m). auto.
    Qed.

    Lemma l_look i j c : edge_in e i j c <-> look e i j = Some c.
    Proof. split; apply look_edge_in; apply l_unique. Qed.

    Lemma l_dense : ids_dense e.
    Proof.
      pose proof HL as (_ & _ & _ & H4 & _ & _ & H7 & H8). split.
      - intros i m Hi. rewrite l_length. eapply H8; eauto.
      - intros i j c Hi. rewrite l_length. apply l_look in Hi.
        destruct (lt_dec j (length pts)); auto. unfold e in Hi. rewrite H4 in Hi by lia. discriminate.
    Qed.

    Lemma l_edge_pts i j c : look e i j = Some c -> exists p q,
      nth_error pts i = Some p /\ nth_error pts j = Some q /\ g2_edge keq dist_cost h p q = Some c.
    Proof.
      pose proof HL as (_ & _ & H3 & H4 & _). intro H.
      assert (i < length pts /\ j < length pts) as [Hi Hj].
      { destruct (lt_dec i (length pts)), (lt_dec j (length pts)); auto; unfold e in H; rewrite H4 in H by lia; discriminate. }
      destruct (nth_error pts i) as [p|] eqn:Ei; [|apply nth_error_None in Ei; lia].
      destruct (nth_error pts j) as [q|] eqn:Ej; [|apply nth_error_None in Ej; lia].
      exists p, q. repeat split; auto. rewrite <- (H3 i j p q); auto.
    Qed.

    Lemma l_edge_idx p q c : g2_edge keq dist_cost h p q = Some c -> exists i j,
      pidx keq p pts = Some i /\ pidx keq q pts = Some j /\ look e i j = Some c.
    Proof.
      pose proof HL as (HR & _ & H3 & H4 & H5 & _). intro H.
      destruct (pidx keq p pts) as [i|] eqn:Ei.
      2: { rewrite g2_edge_fresh in H; [discriminate|]. left. intros x Hx.
           eapply (linked_points keq dist_cost pts g h h'); eauto. }
      destruct (pidx keq q pts) as [j|] eqn:Ej.
      2: { rewrite g2_edge_fresh in H; [discriminate|]. right. intros x Hx.
           eapply (linked_points keq dist_cost pts g h h'); eauto. }
      exists i, j. repeat split; auto.
      apply pidx_Some in Ei. apply pidx_Some in Ej. destruct Ei as (p' & Hi & Hp), Ej as (q' & Hj & Hq).
      unfold e. rewrite (H3 i j p' q') by auto. rewrite (g2_edge_congr h p' q' p q); auto.
    Qed.

    Lemma l_route l c : route (edge_in e) l c -> Forall (fun k => k < length pts) l ->
      exists ps, mapM (fun k => match nth_error pts k with Some p => Ok p | None => Throw OutOfRange end) l = Ok ps /\
        pt_route keq dist_cost h ps c /\ length ps = length l /\
        (forall k, nth_error ps k = match nth_error l k with Some i => nth_error pts i | None => None end).
    Proof.
      intros H. induction H as [i|i m l c c' Hc Hr IH]; intro HF.
      - apply Forall_inv in HF. simpl. destruct (nth_error pts i) as [p|] eqn:Ei; [|apply nth_error_None in Ei; lia].
        simpl. exists [p]. split; auto. split; [constructor|]. split; auto.
        intros [|[|k]]; simpl; auto.
      - pose proof (Forall_inv HF) as Hi. apply Forall_inv_tail in HF. destruct (IH HF) as (ps & E1 & E2 & E3 & E4).
        apply l_look, l_edge_pts in Hc. destruct Hc as (p & q & Hp & Hq & Hpq).
        remember (m :: l) as ml. simpl. rewrite Hp. cbn [bind]. rewrite E1. cbn [bind]. exists (p :: ps).
        split; auto. destruct ps as [|q' ps]; [inversion E2|].
        assert (q' = q). { specialize (E4 0). subst ml. simpl in E4. congruence. } subst q'.
        split; [constructor; auto|]. split; [simpl in *; lia|].
        intros [|k]; simpl; auto.
    Qed.

    Lemma l_walk ps c : pt_route keq dist_cost h ps c -> forall p, hd_error ps = Some p -> forall i, pidx keq p pts = Some i ->
      forall q, hd_error (rev ps) = Some q ->
      exists j, pidx keq q pts = Some j /\ walk (edge_in e) i j c.
    Proof.
      intro H. induction H as [p|p q l c c' Hc Hr IH]; intros p0 Hp0 i Hi q0 Hq0.
      - simpl in *. assert (p0 = q0) by congruence. subst. exists i. split; auto. constructor.
      - simpl in Hp0. assert (p0 = p) by congruence. subst p0.
        apply l_edge_idx in Hc. destruct Hc as (i' & j & E1 & E2 & E3). assert (i' = i) by congruence. subst i'.
        destruct (IH q eq_refl j E2 q0) as (k & Hk & Hw).
        { simpl in Hq0. rewrite <- app_assoc in Hq0. simpl in *. destruct (rev l); auto. }
        exists k. split; auto. econstructor; eauto. apply l_look. auto.
    Qed.
  End Linked.
End Proofs.
