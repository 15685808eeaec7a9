(** Proofs about the coverage graph and the conversion of tours to routes, second part. *)
From Coq Require Import List Arith ZArith Lia Bool Permutation.
From Verif Require Import Outcome ListAux Swath_Model Graph_Model Graph_Spec Graph_Proofs2 Graph_Proofs3 Graph_Proofs4
  Graph2D_Model Graph2D_Spec Graph2D_Proofs Graph2D_Proofs2 Graph2D_Props Route_Model Route_Spec Route_Proofs
  RoutePlanner_Model RoutePlanner_Spec RoutePlanner_Proofs.
Import ListNotations.

Lemma start_first {P W} (d : P) (s : swath P W) : swath_startPoint d s = first_pt d s.
Proof. unfold swath_startPoint, first_pt. destruct (sw_path s); auto. Qed.

Lemma stop_last {P W} (d : P) (s : swath P W) : swath_endPoint d s = last_pt d s.
Proof.
  unfold swath_endPoint, last_pt. destruct (snoc_cases (sw_path s)) as [->|(l & a & ->)]; auto.
  rewrite rev_app_distr, last_last. auto.
Qed.

Section Cover.
  Context {P W : Type}.
  Variable p_default : P.
  Variable w_nonpos : W -> bool.
  Variable w_zero : W.
  Variable wkt : P -> P.
  Variable keq : P -> P -> bool.
  Variable mid : P -> P -> P.
  Variable far : P.
  Hypothesis Heq : equivalence keq.
  Notation swath := (swath P W).
  Notation first := (first_pt p_default).
  Notation final := (last_pt p_default).

  Variable ss : list swath.
  Variable rse : option P.
  Variable redirect : bool.
  Let n := length ss.
  Let d := depot_of far rse.

  Definition pt (l : nat * kind) : P :=
    match nth_error ss (fst l) with
    | Some s => match snd l with KStart => first s | KEnd => final s | KMid => mid (first s) (final s) end
    | None => p_default
    end.

  Hypothesis Hdiff : pairwise_different keq (d :: flat_map (swath_nodes p_default mid) ss).

  Let krefl : forall p, keq p p = true := proj1 Heq.
  Let ksym : forall p q, keq p q = keq q p := proj1 (proj2 Heq).
  Let ktrans : forall p q r, keq p q = true -> keq q r = true -> keq p r = true := proj2 (proj2 Heq).

  Definition kno (k : kind) : nat := match k with KStart => 0 | KEnd => 1 | KMid => 2 end.
  Definition lno (l : nat * kind) : nat := 3 * fst l + kno (snd l).

  Lemma lno_inj l l' : lno l = lno l' -> l = l'.
  Proof.
    destruct l as [k x], l' as [k' x']. unfold lno. simpl. intro H.
    assert (k = k' /\ kno x = kno x') as [-> Hx] by (destruct x, x'; simpl in *; lia).
    destruct x, x'; simpl in Hx; try discriminate; auto.
  Qed.

  Lemma pt_nth (l : nat * kind) : fst l < n -> nth_error (flat_map (swath_nodes p_default mid) ss) (lno l) = Some (pt l).
  Proof.
    unfold lno, pt, n. destruct l as [k x]. simpl fst. simpl snd. clear Hdiff.
    revert k. induction ss as [|s t IH]; intros k H; simpl in H; [lia|].
    destruct k as [|k].
    - simpl. destruct x; auto.
    - specialize (IH k ltac:(lia)). cbn [flat_map nth_error].
      replace (3 * S k + kno x) with (S (S (S (3 * k + kno x)))) by lia. simpl nth_error at 1. exact IH.
  Qed.

  Lemma fop_nth {A} (R : A -> A -> Prop) l : ForallOrdPairs R l -> forall i j a b, i < j ->
    nth_error l i = Some a -> nth_error l j = Some b -> R a b.
  Proof.
    induction 1 as [|a l Ha Hl IH]; intros i j x y Hij Hx Hy; [destruct i; discriminate|].
    destruct i as [|i], j as [|j]; try lia; simpl in *.
    - assert (a = x) by congruence. subst. rewrite Forall_forall in Ha. apply Ha. eapply nth_error_In; eauto.
    - eapply IH; [|eauto|eauto]. lia.
  Qed.

  Lemma pt_inj l l' : fst l < n -> fst l' < n -> keq (pt l) (pt l') = true -> l = l'.
  Proof.
    intros H H' E. apply lno_inj. pose proof (pt_nth l H) as A. pose proof (pt_nth l' H') as B.
    inversion Hdiff as [|? ? _ Hd]. subst.
    destruct (lt_eq_lt_dec (lno l) (lno l')) as [[Hl|]|Hl]; auto.
    - rewrite (fop_nth _ _ Hd _ _ _ _ Hl A B) in E. discriminate.
    - pose proof (fop_nth _ _ Hd _ _ _ _ Hl B A) as F. simpl in F. rewrite ksym, F in E. discriminate.
  Qed.

  Lemma pt_depot l : fst l < n -> keq d (pt l) = false.
  Proof.
    intro H. inversion Hdiff as [|? ? Hd _]. subst. rewrite Forall_forall in Hd. apply Hd.
    eapply nth_error_In. apply pt_nth; auto.
  Qed.

  (** ** Arcs as label pairs *)
  Lemma in_ss s : In s ss -> exists k, k < n /\ nth_error ss k = Some s.
  Proof. intro H. apply In_nth_error in H. destruct H as [k Hk]. exists k. split; auto. apply nth_error_Some. congruence. Qed.

  Lemma arcs_inner_lbl a b : In (a, b) (arcs_inner p_default mid redirect ss) ->
    exists la lb, fst la < n /\ fst lb < n /\ a = pt la /\ b = pt lb /\ mid_ok redirect la lb.
  Proof.
    unfold arcs_inner. intro H. apply in_app_or in H. destruct H as [H|H].
    - apply in_flat_map in H. destruct H as (s & Hs & H). destruct (in_ss s Hs) as (k & Hk & Ek).
      unfold arcs_swath in H. rewrite start_first, stop_last in H.
      assert (Ps : pt (k, KStart) = first s) by (unfold pt; simpl; rewrite Ek; auto).
      assert (Pe : pt (k, KEnd) = final s) by (unfold pt; simpl; rewrite Ek; auto).
      assert (Pm : pt (k, KMid) = mid (first s) (final s)) by (unfold pt; simpl; rewrite Ek; auto).
      rewrite <- Pm, <- Ps, <- Pe in H.
      assert (Hex : exists x y, a = pt (k, x) /\ b = pt (k, y) /\ mid_ok redirect (k, x) (k, y)).
      { unfold mid_ok. destruct redirect; simpl in H; repeat (destruct H as [H|H]; [|]); try contradiction;
        (match type of H with (pt (k, ?x), pt (k, ?y)) = _ => exists x, y end;
         split; [congruence|split; [congruence|]]; split; intros k' Hk'; injection Hk'; intros; subst; auto; discriminate). }
      destruct Hex as (x & y & Ha & Hb & Hm). exists (k, x), (k, y). simpl. auto.
    - apply in_flat_map in H. destruct H as ([s1 s2] & Hp & H). apply in_prod_iff in Hp. destruct Hp as [H1 H2].
      destruct (in_ss s1 H1) as (k1 & Hk1 & E1), (in_ss s2 H2) as (k2 & Hk2 & E2).
      unfold arcs_pair in H. rewrite (start_first p_default s1), (start_first p_default s2), (stop_last p_default s1), ?(stop_last p_default s2) in H.
      assert (Ps : forall k s, nth_error ss k = Some s -> pt (k, KStart) = first s) by (intros k s Ek; unfold pt; simpl; rewrite Ek; auto).
      assert (Pe : forall k s, nth_error ss k = Some s -> pt (k, KEnd) = final s) by (intros k s Ek; unfold pt; simpl; rewrite Ek; auto).
      assert (Hm : forall u v k k', u <> KMid -> v <> KMid -> mid_ok redirect (k, u) (k', v)).
      { intros u v k k' Hu Hv. split; intros k0 E; congruence. }
      assert (Hex : exists x y, ((fst x = k1 \/ fst x = k2) /\ (fst y = k1 \/ fst y = k2)) /\ a = pt x /\ b = pt y /\ snd x <> KMid /\ snd y <> KMid).
      { rewrite <- (Ps k1 s1), <- (Ps k2 s2), <- (Pe k1 s1) in H by auto.
        destruct redirect; [rewrite <- (Pe k2 s2) in H by auto|]; simpl in H; repeat (destruct H as [H|H]; [|]); try contradiction;
        (match type of H with (pt ?x, pt ?y) = _ => exists x, y end; simpl; repeat split; auto; congruence). }
      destruct Hex as ([kx x] & [ky y] & [Hx Hy] & Ha & Hb & Nx & Ny). simpl in *.
      exists (kx, x), (ky, y). simpl. split; [destruct Hx; subst; auto|]. split; [destruct Hy; subst; auto|]. auto.
  Qed.

  Lemma arcs_depot_lbl a b : In (a, b) (flat_map (arcs_depot p_default d) ss) ->
    exists l, fst l < n /\ snd l <> KMid /\ ((a = pt l /\ b = d) \/ (a = d /\ b = pt l)).
  Proof.
    intro H. apply in_flat_map in H. destruct H as (s & Hs & H). destruct (in_ss s Hs) as (k & Hk & Ek).
    unfold arcs_depot in H. rewrite start_first, stop_last in H.
    assert (Ps : pt (k, KStart) = first s) by (unfold pt; simpl; rewrite Ek; auto).
    assert (Pe : pt (k, KEnd) = final s) by (unfold pt; simpl; rewrite Ek; auto).
    rewrite <- Ps, <- Pe in H. simpl in H.
    destruct H as [H|[H|[H|[H|[]]]]];
      [exists (k, KStart)|exists (k, KStart)|exists (k, KEnd)|exists (k, KEnd)]; simpl; (split; [auto|split; [discriminate|]]);
      [left|right|left|right]; split; congruence.
  Qed.

  Lemma label_in_inner l : fst l < n -> exists a b, In (a, b) (arcs_inner p_default mid redirect ss) /\ (pt l = a \/ pt l = b).
  Proof.
    destruct l as [k x]. simpl. intro H. unfold pt. simpl.
    destruct (nth_error ss k) as [s|] eqn:E; [|apply nth_error_None in E; unfold n in H; lia].
    assert (Hs : In s ss) by (eapply nth_error_In; eauto).
    assert (Hin : forall ab, In ab (arcs_swath p_default mid redirect s) -> In ab (arcs_inner p_default mid redirect ss)).
    { intros ab Hab. unfold arcs_inner. apply in_or_app. left. apply in_flat_map. exists s. auto. }
    unfold arcs_swath in Hin. rewrite start_first, stop_last in Hin.
    destruct redirect; destruct x; do 2 eexists; (split; [apply Hin; simpl|]).
    - left; reflexivity. - auto. - right; right; left; reflexivity. - auto. - left; reflexivity. - auto.
    - left; reflexivity. - auto. - right; left; reflexivity. - auto. - left; reflexivity. - auto.
  Qed.

  (** ** The built graph *)
  Variable dc : P -> P -> Z.
  Variable g : graph2d P.
  Hypothesis Hg : exists g1, adds keq g2_empty (arcs_inner p_default mid redirect ss) g1 /\
    adds keq g1 (flat_map (arcs_depot p_default d) ss) g.

  Definition node (i : nat) (l : nat * kind) : Prop :=
    exists p, g2_indexToNode g i = Ok p /\ keq (pt l) p = true.

  Lemma cov_graph : 0 < n ->
    exists N, g2_numNodes g = S N /\
    (forall i, i < N -> exists l, fst l < n /\ node i l) /\
    (forall l, fst l < n -> exists i, i < N /\ node i l) /\
    (forall i l l', fst l < n -> fst l' < n -> node i l -> node i l' -> l = l') /\
    (forall i j l, node i l -> node j l -> i = j) /\
    (forall i j l l' c, fst l < n -> fst l' < n -> node i l -> node j l' -> edge_in (g_edges (g2_graph g)) i j c -> mid_ok redirect l l') /\
    (forall j l c, fst l < n -> node j l -> edge_in (g_edges (g2_graph g)) N j c -> snd l <> KMid) /\
    (forall j l c, fst l < n -> node j l -> edge_in (g_edges (g2_graph g)) j N c -> snd l <> KMid) /\
    (forall i j l l', fst l < n -> fst l' < n -> node i l -> node j l' ->
       In (pt l, pt l') (arcs_inner p_default mid redirect ss) -> exists c, edge_in (g_edges (g2_graph g)) i j c) /\
    (forall j l, fst l < n -> node j l -> snd l <> KMid ->
       (exists c, edge_in (g_edges (g2_graph g)) N j c) /\ (exists c, edge_in (g_edges (g2_graph g)) j N c)).
  Proof.
    intro Hn. destruct Hg as (g1 & A1 & A2).
    destruct (adds_history keq dc _ _ _ A1) as (h1 & M1 & D1 & R1).
    destruct (adds_history keq dc _ _ _ A2) as (h2 & M2 & D2 & R2).
    destruct (linked_run keq dc Heq h1 g1 R1) as (pts1 & h1' & L1).
    destruct (linked_mono keq dc Heq h1 h2 g1 g pts1 h1' L1 R2) as (t & h' & L).
    pose proof L1 as (HR1 & _ & _ & _ & I1 & _). pose proof L as (HR & _ & _ & _ & I & _).
    assert (D : Forall is_dir (h1 ++ h2)) by (apply Forall_app; auto).
    (* every point before the depot is a label *)
    assert (LB : forall i p, nth_error pts1 i = Some p -> exists l, fst l < n /\ keq (pt l) p = true).
    { intros i p Hi. destruct (proj1 (I1 p)) as (q & Hq & Eq).
      { exists i. eapply (pidx_at keq Heq); eauto. apply HR1. }
      apply (inserted_of_arcs h1 q D1) in Hq. destruct Hq as (a & b & Hab & Hq). rewrite M1 in Hab.
      destruct (arcs_inner_lbl a b Hab) as (la & lb & Ha & Hb & -> & -> & _).
      destruct Hq; subst q; eauto. }
    assert (BL : forall l, fst l < n -> exists i p, pidx keq (pt l) pts1 = Some i /\ nth_error pts1 i = Some p /\ keq (pt l) p = true).
    { intros l Hl. destruct (label_in_inner l Hl) as (a & b & Hab & Hp). rewrite <- M1 in Hab.
      destruct (proj2 (I1 (pt l))) as [i Hi].
      { exists (pt l). split; auto. apply inserted_of_arcs; auto. exists a, b. auto. }
      destruct (pidx_Some keq _ _ _ Hi) as (p & Hp' & E). exists i, p. split; [auto|]. split; auto. rewrite ksym. auto. }
    (* the depot is the only later point *)
    assert (Ht : exists x, t = [x] /\ keq d x = true).
    { assert (Hd : exists k, pidx keq d (pts1 ++ t) = Some k).
      { apply I. exists d. split; auto. apply inserted_of_arcs; auto.
        destruct ss as [|s ss']; [simpl in *; unfold n in Hn; simpl in Hn; lia|].
        exists (swath_startPoint p_default s), d. split; auto. rewrite map_app, M2. apply in_or_app. right. simpl. auto. }
      assert (Hx : forall x, In x t -> keq d x = true).
      { intros x Hx. apply In_nth_error in Hx. destruct Hx as [j Hj].
        assert (Hj' : nth_error (pts1 ++ t) (length pts1 + j) = Some x) by (rewrite nth_error_app2, Nat.add_comm, Nat.add_sub by lia; auto).
        destruct (proj1 (I x)) as (q & Hq & Eq). { exists (length pts1 + j). eapply (pidx_at keq Heq); eauto. apply HR. }
        assert (Hlab : forall l, fst l < n -> keq (pt l) x = true -> False).
        { intros l Hl E. destruct (BL l Hl) as (i & p & Hi & Hp & E').
          apply (pidx_prefix keq pts1 t) in Hi.
          assert (pidx keq (pt l) (pts1 ++ t) = Some (length pts1 + j)).
          { eapply (pidx_at keq Heq); [apply HR|exact Hj'|rewrite ksym; auto]. }
          assert (i < length pts1) by (apply nth_error_Some; congruence). assert (i = length pts1 + j) by congruence. lia. }
        apply (inserted_of_arcs (h1 ++ h2) q D) in Hq. destruct Hq as (a & b & Hab & Hq). rewrite map_app, M1, M2 in Hab.
        apply in_app_or in Hab. destruct Hab as [Hab|Hab].
        - destruct (arcs_inner_lbl a b Hab) as (la & lb & Ha & Hb & -> & -> & _). exfalso. destruct Hq; subst q; eauto.
        - destruct (arcs_depot_lbl a b Hab) as (l & Hl & _ & [[-> ->]|[-> ->]]); destruct Hq; subst q; auto; exfalso; eauto. }
      destruct Hd as [k Hk]. destruct (pidx_Some keq _ _ _ Hk) as (x & Hxk & Ex).
      destruct (nth_prefix_inv pts1 t k x Hxk) as [Hp|Hp].
      - exfalso. destruct (LB k x Hp) as (l & Hl & E). rewrite ksym in Ex.
        pose proof (pt_depot l Hl) as F. rewrite (ktrans d x (pt l) Ex) in F; [discriminate|rewrite ksym; auto].
      - destruct t as [|y [|z t]].
        + rewrite app_nil_r in Hxk. assert (k < length pts1) by (apply nth_error_Some; congruence). lia.
        + exists y. split; auto. apply Hx. left; auto.
        + exfalso. assert (Hyz : keq y z = true).
          { apply (ktrans y d z); [rewrite ksym|]; apply Hx; simpl; auto. }
          assert (Ey : nth_error (pts1 ++ y :: z :: t) (length pts1) = Some y) by (rewrite nth_error_app2, Nat.sub_diag by lia; auto).
          assert (Ez : nth_error (pts1 ++ y :: z :: t) (S (length pts1)) = Some z).
          { rewrite nth_error_app2 by lia. replace (S (length pts1) - length pts1) with 1 by lia. auto. }
          assert (Q1 : pidx keq z (pts1 ++ y :: z :: t) = Some (length pts1)) by (eapply (pidx_at keq Heq); [apply HR|exact Ey|auto]).
          assert (Q2 : pidx keq z (pts1 ++ y :: z :: t) = Some (S (length pts1))) by (eapply (pidx_at keq Heq); [apply HR|exact Ez|auto]).
          assert (length pts1 = S (length pts1)) by congruence. lia. }
    destruct Ht as (x & -> & Ex).
    assert (NR : forall i l, node i l <-> exists p, nth_error (pts1 ++ [x]) i = Some p /\ keq (pt l) p = true).
    { intros i l. unfold node. rewrite (indexToNode_rep keq _ _ i HR).
      destruct (nth_error (pts1 ++ [x]) i) as [p|]; split; intros (q & Hq & E); try discriminate; exists q; split; auto; congruence. }
    assert (NJ : forall i j l, node i l -> node j l -> i = j).
    { intros i j l Hi Hj. apply NR in Hi. apply NR in Hj. destruct Hi as (p & Hi & Ep), Hj as (q & Hj & Eq).
      assert (Q1 : pidx keq (pt l) (pts1 ++ [x]) = Some i) by (eapply (pidx_at keq Heq); [apply HR|exact Hi|rewrite ksym; auto]).
      assert (Q2 : pidx keq (pt l) (pts1 ++ [x]) = Some j) by (eapply (pidx_at keq Heq); [apply HR|exact Hj|rewrite ksym; auto]).
      congruence. }
    (* arcs *)
    assert (AR : forall i j c p q, nth_error (pts1 ++ [x]) i = Some p -> nth_error (pts1 ++ [x]) j = Some q ->
      edge_in (g_edges (g2_graph g)) i j c -> exists a b, 
        (In (a, b) (arcs_inner p_default mid redirect ss) \/ In (a, b) (flat_map (arcs_depot p_default d) ss)) /\ keq a p = true /\ keq b q = true).
    { intros i j c p q Hi Hj He. apply (l_look keq dc (h1 ++ h2) _ g h' L) in He.
      pose proof L as (_ & _ & E3 & _). rewrite (E3 i j p q Hi Hj) in He.
      destruct (proj1 (edge_of_arcs keq dc (h1 ++ h2) p q D)) as (a & b & Hab & H1 & H2); [congruence|].
      exists a, b. split; auto. rewrite map_app, M1, M2 in Hab. apply in_app_or in Hab. auto. }
    assert (RA : forall i j a b p q, nth_error (pts1 ++ [x]) i = Some p -> nth_error (pts1 ++ [x]) j = Some q ->
      In (a, b) (arcs_inner p_default mid redirect ss) \/ In (a, b) (flat_map (arcs_depot p_default d) ss) ->
      keq a p = true -> keq b q = true -> exists c, edge_in (g_edges (g2_graph g)) i j c).
    { intros i j a b p q Hi Hj Hab H1 H2. pose proof L as (_ & _ & E3 & _).
      assert (He : g2_edge keq dc (h1 ++ h2) p q <> None).
      { apply edge_of_arcs; auto. exists a, b. rewrite map_app, M1, M2. split; auto. apply in_or_app. auto. }
      rewrite <- (E3 i j p q Hi Hj) in He. destruct (look (g_edges (g2_graph g)) i j) as [c|] eqn:El; [|congruence].
      exists c. apply (l_look keq dc (h1 ++ h2) _ g h' L). auto. }
    assert (DP : forall l p, fst l < n -> keq (pt l) p = true -> keq d p = true -> False).
    { intros l p Hl H1 H2. pose proof (pt_depot l Hl) as F. rewrite (ktrans d p (pt l) H2) in F; [discriminate|rewrite ksym; auto]. }
    assert (SAME : forall l l' p, fst l < n -> fst l' < n -> keq (pt l) p = true -> keq (pt l') p = true -> l = l').
    { intros l l' p Hl Hl' H1 H2. apply pt_inj; auto. apply (ktrans _ p); auto. rewrite ksym; auto. }
    exists (length pts1). split.
    { unfold g2_numNodes. destruct HR as (HR' & _). unfold rep2, N2I in HR'. rewrite HR', combine_length, seq_length, Nat.min_id, app_length. simpl. lia. }
    split.
    { intros i Hi. destruct (nth_error pts1 i) as [p|] eqn:E; [|apply nth_error_None in E; lia].
      destruct (LB i p E) as (l & Hl & El). exists l. split; auto. apply NR. exists p. split; auto. apply nth_prefix; auto. }
    split.
    { intros l Hl. destruct (BL l Hl) as (i & p & Hi & Hp & E). exists i. split; [eapply idx_lt; eauto|].
      apply NR. exists p. split; auto. apply nth_prefix; auto. }
    split.
    { intros i l l' Hl Hl' H1 H2. apply NR in H1. apply NR in H2. destruct H1 as (p & Hi & Ep), H2 as (q & Hj & Eq).
      assert (p = q) by congruence. subst. eauto. }
    split; [exact NJ|]. split; [|split; [|split; [|split]]].
    - intros i j l l' c Hl Hl' H1 H2 He. apply NR in H1. apply NR in H2. destruct H1 as (p & Hi & Ep), H2 as (q & Hj & Eq).
      destruct (AR i j c p q Hi Hj He) as (a & b & Hab & Ea & Eb). destruct Hab as [Hab|Hab].
      + destruct (arcs_inner_lbl a b Hab) as (la & lb & Ha & Hb & -> & -> & Hm).
        rewrite (SAME l la p), (SAME l' lb q) by auto. auto.
      + exfalso. destruct (arcs_depot_lbl a b Hab) as (l0 & Hl0 & _ & [[-> ->]|[-> ->]]).
        * apply (DP l' q); auto. * apply (DP l p); auto.
    - intros j l c Hl H1 He. apply NR in H1. destruct H1 as (q & Hj & Eq).
      assert (HN : nth_error (pts1 ++ [x]) (length pts1) = Some x) by (rewrite nth_error_app2, Nat.sub_diag by lia; auto).
      destruct (AR _ j c x q HN Hj He) as (a & b & Hab & Ea & Eb). destruct Hab as [Hab|Hab].
      + exfalso. destruct (arcs_inner_lbl a b Hab) as (la & lb & Ha & Hb & -> & -> & Hm). apply (DP la x); auto.
      + destruct (arcs_depot_lbl a b Hab) as (l0 & Hl0 & Hk & [[-> ->]|[-> ->]]).
        * exfalso. apply (DP l0 x); auto.
        * rewrite (SAME l l0 q); auto.
    - intros j l c Hl H1 He. apply NR in H1. destruct H1 as (q & Hj & Eq).
      assert (HN : nth_error (pts1 ++ [x]) (length pts1) = Some x) by (rewrite nth_error_app2, Nat.sub_diag by lia; auto).
      destruct (AR j _ c q x Hj HN He) as (a & b & Hab & Ea & Eb). destruct Hab as [Hab|Hab].
      + exfalso. destruct (arcs_inner_lbl a b Hab) as (la & lb & Ha & Hb & -> & -> & Hm). apply (DP lb x); auto.
      + destruct (arcs_depot_lbl a b Hab) as (l0 & Hl0 & Hk & [[-> ->]|[-> ->]]).
        * rewrite (SAME l l0 q); auto.
        * exfalso. apply (DP l0 x); auto.
    - intros i j l l' Hl Hl' H1 H2 Hin. apply NR in H1. apply NR in H2. destruct H1 as (p & Hi & Ep), H2 as (q & Hj & Eq).
      apply (RA i j (pt l) (pt l') p q); auto.
    - intros j l Hl H1 Hk. apply NR in H1. destruct H1 as (q & Hj & Eq).
      assert (HN : nth_error (pts1 ++ [x]) (length pts1) = Some x) by (rewrite nth_error_app2, Nat.sub_diag by lia; auto).
      assert (Hin : In (pt l, d) (flat_map (arcs_depot p_default d) ss) /\ In (d, pt l) (flat_map (arcs_depot p_default d) ss)).
      { unfold pt. destruct (nth_error ss (fst l)) as [s|] eqn:Es; [|apply nth_error_None in Es; unfold n in Hl; lia].
        apply nth_error_In in Es. destruct (snd l); [| |congruence];
          split; apply in_flat_map; exists s; (split; [exact Es|]); unfold arcs_depot; rewrite (start_first p_default s), (stop_last p_default s); simpl; auto. }
      destruct Hin as [I1' I2']. split.
      + apply (RA _ j d (pt l) x q); auto.
      + apply (RA j _ (pt l) d q x); auto.
  Qed.
End Cover.
