(** Proofs about the coverage graph and the conversion of tours to routes, last part. *)
From Coq Require Import List Arith ZArith Lia Bool Permutation.
From Verif Require Import Outcome ListAux Swath_Model Graph_Model Graph_Spec Graph_Proofs2 Graph_Proofs3 Graph_Proofs4
  Graph2D_Model Graph2D_Spec Graph2D_Proofs Graph2D_Proofs2 Graph2D_Props Route_Model Route_Spec Route_Proofs
  RoutePlanner_Model RoutePlanner_Spec RoutePlanner_Proofs RoutePlanner_Proofs2 RoutePlanner_Proofs3.
Import ListNotations.

Section Create.
  Context {P W : Type}.
  Variable p_default : P.
  Variable keq : P -> P -> bool.
  Variable mid : P -> P -> P.
  Variable far : P.
  Hypothesis Heq : equivalence keq.
  Notation swath := (swath P W).
  Variable ss : list swath.
  Variable rse : option P.
  Variable Inv : graph2d P -> Prop.
  Hypothesis Hans : answers keq Inv (opt_list rse ++ end_points p_default ss).

  Definition known_pt (a : P) : Prop := exists p, In p (opt_list rse ++ end_points p_default ss) /\ keq p a = true.

  Lemma known_ends s : In s ss -> known_pt (swath_startPoint p_default s) /\ known_pt (swath_endPoint p_default s).
  Proof.
    intro H. rewrite start_first, stop_last. split; [exists (first_pt p_default s)|exists (last_pt p_default s)];
      (split; [apply in_or_app; right; apply in_flat_map; exists s; simpl; auto|apply Heq]).
  Qed.

  Lemma edge_short_ok g a b sg : Inv sg -> known_pt a -> known_pt b ->
    exists g' sg', g2_addEdge_short keq g a b sg = Ok (g', sg') /\ Inv sg'.
  Proof.
    intros HI Ha Hb. unfold g2_addEdge_short.
    destruct (Hans sg a b HI Ha Hb) as [_ (sg1 & c1 & E1 & I1)]. rewrite E1. cbn [bind fst snd].
    destruct (Hans sg1 b a I1 Hb Ha) as [_ (sg2 & c2 & E2 & I2)]. rewrite ?E2. cbn [bind fst snd]. eauto.
  Qed.

  Lemma directed_short_ok g a b sg : Inv sg -> known_pt a -> known_pt b ->
    exists g' sg', g2_addDirectedEdge_short keq g a b sg = Ok (g', sg') /\ Inv sg'.
  Proof.
    intros HI Ha Hb. unfold g2_addDirectedEdge_short.
    destruct (Hans sg a b HI Ha Hb) as [_ (sg1 & c1 & E1 & I1)]. rewrite E1. cbn [bind fst snd]. eauto.
  Qed.

  Lemma pairs_ok redirect l : (forall s1 s2, In (s1, s2) l -> In s1 ss /\ In s2 ss) -> forall g sg, Inv sg ->
    exists g' sg', foldM (cov_pair p_default keq redirect) l (g, sg) = Ok (g', sg') /\ Inv sg'.
  Proof.
    induction l as [|[s1 s2] l IH]; intros Hl g sg HI; [simpl; eauto|]. cbn [foldM].
    destruct (Hl s1 s2 (or_introl eq_refl)) as [H1 H2].
    destruct (known_ends s1 H1) as [K1 K2], (known_ends s2 H2) as [K3 K4].
    assert (Hs : exists g' sg', cov_pair p_default keq redirect (g, sg) (s1, s2) = Ok (g', sg') /\ Inv sg').
    { unfold cov_pair. destruct redirect; cbn [fst snd].
      - destruct (edge_short_ok g _ _ sg HI K1 K3) as (g1 & x1 & E1 & I1). rewrite E1. cbn [bind fst snd].
        destruct (edge_short_ok g1 _ _ x1 I1 K2 K4) as (g2 & x2 & E2 & I2). rewrite E2. cbn [bind fst snd].
        destruct (edge_short_ok g2 _ _ x2 I2 K1 K4) as (g3 & x3 & E3 & I3). rewrite E3. cbn [bind fst snd].
        apply edge_short_ok; auto.
      - apply directed_short_ok; auto. }
    destruct Hs as (g1 & sg1 & E & I1). rewrite E. cbn [bind]. apply IH; auto.
    intros x y Hxy. apply Hl. right; auto.
  Qed.

  Lemma depots_ok l : (forall s, In s l -> In s ss) -> forall g sg, Inv sg ->
    exists g' sg', foldM (cov_depot p_default keq far rse) l (g, sg) = Ok (g', sg') /\ Inv sg'.
  Proof.
    induction l as [|s l IH]; intros Hl g sg HI; [simpl; eauto|]. cbn [foldM].
    destruct (known_ends s (Hl s (or_introl eq_refl))) as [K1 K2].
    assert (Hs : exists g' sg', cov_depot p_default keq far rse (g, sg) s = Ok (g', sg') /\ Inv sg').
    { unfold cov_depot. assert (Hk : forall p, rse = Some p -> known_pt p).
      { intros p Hp. exists p. split; [apply in_or_app; left; rewrite Hp; simpl; auto|apply Heq]. }
      assert (Hcase : (exists p, rse = Some p) \/ rse = None) by (generalize rse; intros [p|]; eauto).
      destruct Hcase as [[p Erse]|Erse]; rewrite Erse; cbn [fst snd]; [|eauto]. specialize (Hk p Erse).
      destruct (edge_short_ok g _ _ sg HI K1 Hk) as (g1 & x1 & E1 & I1). rewrite E1. cbn [bind fst snd].
      apply edge_short_ok; auto. }
    destruct Hs as (g1 & sg1 & E & I1). rewrite E. cbn [bind]. apply IH; auto. intros x Hx. apply Hl. right; auto.
  Qed.

  Lemma create_ok sbc redirect sg : concat sbc = ss -> Inv sg ->
    exists g sg1, createCoverageGraph p_default keq mid far rse sbc sg redirect = Ok (g, sg1) /\ Inv sg1.
  Proof.
    intros Hss HI. unfold createCoverageGraph. rewrite Hss.
    destruct (pairs_ok redirect (list_prod ss ss)) with (g := fold_left (cov_swath p_default keq mid redirect) ss g2_empty) (sg := sg) as (g1 & sg1 & E & I1); auto.
    { intros s1 s2 H. apply in_prod_iff in H. auto. }
    rewrite E. cbn [bind]. apply depots_ok; auto.
  Qed.
End Create.

Section Main.
  Context {P W : Type}.
  Variable p_default : P.
  Variable w_nonpos : W -> bool.
  Variable w_zero : W.
  Variable wkt : P -> P.
  Variable keq : P -> P -> bool.
  Variable mid : P -> P -> P.
  Variable far : P.
  Hypothesis Heq : equivalence keq.
  Notation swath := (swath P W).
  Notation first := (first_pt p_default).
  Notation final := (last_pt p_default).

  Lemma labels_of (node : nat -> nat * kind -> Prop) n N (H : forall i, i < N -> exists l, fst l < n /\ node i l) :
    forall ids, (forall i, In i ids -> i < N) -> exists L, Forall2 node ids L /\ forall l, In l L -> fst l < n.
  Proof.
    induction ids as [|i ids IH]; intro Hi.
    - exists []. split; [constructor|contradiction].
    - destruct IH as (L & H1 & H2); [intros; apply Hi; right; auto|].
      destruct (H i (Hi i (or_introl eq_refl))) as (l & Hl & Hn).
      exists (l :: L). split; [constructor; auto|]. intros x [<-|Hx]; auto.
  Qed.

  Lemma forall2_nth {A B} (R : A -> B -> Prop) l l' : Forall2 R l l' -> forall i b, nth_error l' i = Some b ->
    exists a, nth_error l i = Some a /\ R a b.
  Proof.
    induction 1 as [|a b l l' Hab H IH]; intros i x Hx; [destruct i; discriminate|].
    destruct i; simpl in *; [exists a; split; congruence|auto].
  Qed.

  Lemma forall2_in {A B} (R : A -> B -> Prop) l l' : Forall2 R l l' -> forall a, In a l -> exists b, In b l' /\ R a b.
  Proof.
    induction 1 as [|x y l l' Hab H IH]; intros a Ha; [contradiction|].
    destruct Ha as [<-|Ha]; [exists y; simpl; auto|]. destruct (IH a Ha) as (b & Hb & Hr). exists b. simpl; auto.
  Qed.

  Variable sbc : list (list swath).
  Variable rse : option P.
  Variable redirect : bool.
  Let ss := concat sbc.
  Let n := length ss.
  Let depot := match rse with Some p => p | None => far end.
  Hypothesis Hne : ss <> [].
  Hypothesis Hok : Forall (fun s => w_nonpos (sw_width s) = false /\ sw_path s <> [] /\
    keq (wkt (first s)) (first s) = true /\ keq (wkt (final s)) (final s) = true) ss.
  Hypothesis Hdiff : pairwise_different keq (depot :: flat_map (swath_nodes p_default mid) ss).
  Variable Inv : graph2d P -> Prop.
  Hypothesis Hans : answers keq Inv (opt_list rse ++ end_points p_default ss).

  Definition all_labels : list (nat * kind) := list_prod (seq 0 n) [KStart; KEnd; KMid].

  Lemma all_labels_in l : In l all_labels <-> fst l < n.
  Proof.
    destruct l as [k x]. unfold all_labels. rewrite in_prod_iff, in_seq. simpl. split; [lia|].
    intro H. split; [lia|]. destruct x; auto.
  Qed.

  Lemma all_labels_nodup : NoDup all_labels.
  Proof.
    unfold all_labels. generalize (seq_NoDup n 0). induction (seq 0 n) as [|k l IH]; intro H; simpl; [constructor|].
    inversion H as [|? ? H1 H2]; subst. specialize (IH H2).
    assert (Hk : forall x, ~ In (k, x) (list_prod l [KStart; KEnd; KMid])) by (intros x Hx; apply in_prod_iff in Hx; tauto).
    repeat constructor; simpl; auto; intros [E|HX]; try discriminate; try (destruct HX as [E|HX]; [discriminate|]); eapply Hk; eauto.
  Qed.

  (** The swaths in their order, each from start to end, then back to the depot. *)
  Definition natural : list (nat * kind) := flat_map (fun k => [(k, KStart); (k, KMid); (k, KEnd)]) (seq 0 n).

  Lemma natural_in l : In l natural <-> fst l < n.
  Proof.
    destruct l as [k x]. unfold natural. rewrite in_flat_map. simpl fst. split.
    - intros (k' & Hk & H). apply in_seq in Hk. simpl in H. destruct H as [H|[H|[H|[]]]]; assert (k' = k) by congruence; lia.
    - intro H. exists k. split; [apply in_seq; lia|]. destruct x; simpl; auto.
  Qed.

  Lemma natural_nth i l : nth_error natural i = Some l -> exists k r, k < n /\ i = 3 * k + r /\
    (r = 0 /\ l = (k, KStart) \/ r = 1 /\ l = (k, KMid) \/ r = 2 /\ l = (k, KEnd)).
  Proof.
    unfold natural. assert (G : forall m s i, nth_error (flat_map (fun k => [(k, KStart); (k, KMid); (k, KEnd)]) (seq s m)) i = Some l ->
      exists k r, k < m /\ i = 3 * k + r /\ (r = 0 /\ l = (s + k, KStart) \/ r = 1 /\ l = (s + k, KMid) \/ r = 2 /\ l = (s + k, KEnd))).
    { induction m as [|m IH]; intros s i' H; [destruct i'; discriminate|].
      cbn [seq flat_map app] in H. destruct i' as [|[|[|i']]]; simpl in H.
      - exists 0, 0. rewrite (Nat.add_0_r s). split; [lia|]. split; auto. left. split; auto; congruence.
      - exists 0, 1. rewrite (Nat.add_0_r s). split; [lia|]. split; auto. right. left. split; auto; congruence.
      - exists 0, 2. rewrite (Nat.add_0_r s). split; [lia|]. split; auto. right. right. split; auto; congruence.
      - destruct (IH (S s) i' H) as (k & r & Hk & -> & Hr). exists (S k), r. split; [lia|]. split; [lia|].
        replace (s + S k) with (S s + k) by lia. auto. }
    intro H. destruct (G n 0 i H) as (k & r & X). exists k, r. exact X.
  Qed.

  Lemma natural_nodup : NoDup natural.
  Proof.
    apply NoDup_nth_error. intros i j Hi E. destruct (nth_error natural i) as [l|] eqn:El; [|apply nth_error_None in El; lia].
    destruct (natural_nth i l El) as (k & r & _ & -> & Hr). destruct (natural_nth j l (eq_sym E)) as (k' & r' & _ & -> & Hr').
    destruct Hr as [[-> ->]|[[-> ->]|[-> ->]]], Hr' as [[-> Hl]|[[-> Hl]|[-> Hl]]]; try discriminate; assert (k = k') by congruence; lia.
  Qed.

  Lemma natural_length : length natural = 3 * n.
  Proof.
    unfold natural. assert (G : forall m s, length (flat_map (fun k => [(k, KStart); (k, KMid); (k, KEnd)]) (seq s m)) = 3 * m).
    { induction m as [|m IH]; intro s; auto. cbn [seq flat_map]. rewrite app_length, IH. simpl. lia. }
    apply G.
  Qed.

  Lemma arcs_natural k s : nth_error ss k = Some s ->
    In (pt p_default mid ss (k, KStart), pt p_default mid ss (k, KMid)) (arcs_inner p_default mid redirect ss) /\
    In (pt p_default mid ss (k, KMid), pt p_default mid ss (k, KEnd)) (arcs_inner p_default mid redirect ss) /\
    (forall k' s', nth_error ss k' = Some s' ->
      In (pt p_default mid ss (k, KEnd), pt p_default mid ss (k', KStart)) (arcs_inner p_default mid redirect ss)).
  Proof.
    intro Hk. assert (Hs : In s ss) by (eapply nth_error_In; eauto). unfold pt. cbn [fst snd]. rewrite Hk. unfold arcs_inner.
    split; [|split].
    - apply in_or_app. left. apply in_flat_map. exists s. split; auto. unfold arcs_swath. rewrite (start_first p_default s), (stop_last p_default s).
      destruct redirect; simpl; auto.
    - apply in_or_app. left. apply in_flat_map. exists s. split; auto. unfold arcs_swath. rewrite (start_first p_default s), (stop_last p_default s).
      destruct redirect; simpl; auto.
    - intros k' s' Hk'. rewrite Hk'. apply in_or_app. right. apply in_flat_map. exists (s, s'). split.
      { apply in_prod; auto. eapply nth_error_In; eauto. }
      unfold arcs_pair. rewrite (start_first p_default s), (stop_last p_default s), (start_first p_default s'), ?(stop_last p_default s'). destruct redirect; simpl; auto 12.
  Qed.

  Lemma tour_exists N g : 0 < n ->
    (forall i, i < N -> exists l, fst l < n /\ node p_default keq mid ss g i l) ->
    (forall l, fst l < n -> exists i, i < N /\ node p_default keq mid ss g i l) ->
    (forall i l l', fst l < n -> fst l' < n -> node p_default keq mid ss g i l -> node p_default keq mid ss g i l' -> l = l') ->
    (forall i j l, node p_default keq mid ss g i l -> node p_default keq mid ss g j l -> i = j) ->
    (forall i j l l', fst l < n -> fst l' < n -> node p_default keq mid ss g i l -> node p_default keq mid ss g j l' ->
       In (pt p_default mid ss l, pt p_default mid ss l') (arcs_inner p_default mid redirect ss) -> exists c, edge_in (g_edges (g2_graph g)) i j c) ->
    (forall j l, fst l < n -> node p_default keq mid ss g j l -> snd l <> KMid ->
       (exists c, edge_in (g_edges (g2_graph g)) N j c) /\ (exists c, edge_in (g_edges (g2_graph g)) j N c)) ->
    exists ids, round_tour (g_edges (g2_graph g)) N ids.
  Proof.
    intros Hn B1 B2 B3 B4 B8 B9.
    assert (X : forall L, (forall l, In l L -> fst l < n) -> exists ids, Forall2 (fun i l => i < N /\ node p_default keq mid ss g i l) ids L).
    { induction L as [|l L IH]; intro H; [exists []; constructor|]. destruct IH as [ids Hids]; [intros; apply H; right; auto|].
      destruct (B2 l) as [i Hi]; [apply H; left; auto|]. exists (i :: ids). constructor; auto. }
    destruct (X natural) as [ids HF]; [intros l Hl; apply natural_in; auto|]. clear X.
    exists ids. pose proof (Forall2_length HF) as Hlen. rewrite natural_length in Hlen.
    assert (Hnth : forall i x, nth_error ids i = Some x -> exists l, nth_error natural i = Some l /\ x < N /\ node p_default keq mid ss g x l).
    { clear - HF. induction HF as [|x l ids L Hxl HF IH]; intros [|i] y Hy; simpl in *; try discriminate; eauto.
      assert (x = y) by congruence. subst. exists l. auto. }
    split.
    - apply NoDup_Permutation.
      + apply NoDup_nth_error. intros i j Hi E. destruct (nth_error ids i) as [x|] eqn:Ex; [|apply nth_error_None in Ex; lia].
        destruct (Hnth i x Ex) as (l & Hl & _ & Nl), (Hnth j x (eq_sym E)) as (l' & Hl' & _ & Nl').
        assert (l = l') by (apply (B3 x); auto; apply natural_in; eapply nth_error_In; eauto). subst l'.
        pose proof natural_nodup as ND. rewrite NoDup_nth_error in ND. apply ND; [apply nth_error_Some|]; congruence.
      + apply seq_NoDup.
      + intro x. rewrite in_seq. split.
        * intro Hx. apply In_nth_error in Hx. destruct Hx as [i Hi]. destruct (Hnth i x Hi) as (l & _ & Hlt & _). lia.
        * intros [_ Hx]. destruct (B1 x Hx) as (l & Hl & Nl). apply natural_in in Hl.
          apply In_nth_error in Hl. destruct Hl as [i Hi].
          destruct (forall2_nth _ _ _ HF i l Hi) as (y & Hy & _ & Ny). rewrite (B4 x y l); auto. eapply nth_error_In; eauto.
    - assert (Hss : forall k, k < n -> exists s, nth_error ss k = Some s).
      { intros k Hk. destruct (nth_error ss k) eqn:E; eauto. apply nth_error_None in E. unfold n in Hk. lia. }
      intros i a b Ha Hb. destruct i as [|i].
      + change (nth_error (ids ++ [N]) 0 = Some b) in Hb. simpl in Ha. assert (a = N) by congruence. subst a.
        rewrite nth_error_app1 in Hb by lia. destruct (Hnth 0 b Hb) as (l & Hl & _ & Nl).
        destruct (natural_nth 0 l Hl) as (k & r & Hk & E & Hr). assert (k = 0 /\ r = 0) as [-> ->] by lia.
        destruct Hr as [[_ ->]|[[? _]|[? _]]]; try discriminate.
        apply (B9 b (0, KStart)); auto. discriminate.
      + change (nth_error (ids ++ [N]) i = Some a) in Ha. change (nth_error (ids ++ [N]) (S i) = Some b) in Hb.
        assert (Li : i < length ids).
        { assert (S i < length (ids ++ [N])) by (apply nth_error_Some; congruence). rewrite app_length in *. simpl in *. lia. }
        rewrite nth_error_app1 in Ha by auto. destruct (Hnth i a Ha) as (l & Hl & _ & Nl).
        assert (Ll : fst l < n) by (apply natural_in; eapply nth_error_In; eauto).
        destruct (natural_nth i l Hl) as (k & r & Hk & Ei & Hr). destruct (Hss k Hk) as [s Es].
        destruct (arcs_natural k s Es) as (A1 & A2 & A3).
        destruct (Nat.eq_dec (S i) (length ids)) as [Elast|Elast].
        * rewrite nth_error_app2, Elast, Nat.sub_diag in Hb by lia. simpl in Hb. assert (b = N) by congruence. subst b.
          apply (B9 a l); auto. destruct Hr as [[-> ->]|[[-> ->]|[-> ->]]]; try discriminate; lia.
        * rewrite nth_error_app1 in Hb by lia. destruct (Hnth (S i) b Hb) as (l' & Hl' & _ & Nl').
          assert (Ll' : fst l' < n) by (apply natural_in; eapply nth_error_In; eauto).
          destruct (natural_nth (S i) l' Hl') as (k' & r' & Hk' & Ei' & Hr'). destruct (Hss k' Hk') as [s' Es'].
          apply (B8 a b l l'); auto.
          destruct Hr as [[-> ->]|[[-> ->]|[-> ->]]], Hr' as [[-> ->]|[[-> ->]|[-> ->]]]; try lia.
          -- assert (k' = k) by lia. subst. auto.
          -- assert (k' = k) by lia. subst. auto.
          -- eapply A3; eauto.
  Qed.

  Lemma complete_tours sg : Inv sg ->
    exists g sg1, createCoverageGraph p_default keq mid far rse sbc sg redirect = Ok (g, sg1) /\ Inv sg1 /\
      g2_numNodes g = 3 * n + 1 /\ (exists ids, round_tour (g_edges (g2_graph g)) (3 * n) ids) /\
      forall ids, round_tour (g_edges (g2_graph g)) (3 * n) ids ->
      exists r sg2 ks ps, transformSolutionToRoute p_default w_nonpos w_zero wkt keq rse ids sbc g sg1 = Ok (r, sg2) /\ Inv sg2 /\
        Permutation (map fst ks) (seq 0 n) /\
        Forall2 (driven wkt ss) (concat (r_swaths r)) ks /\
        (redirect = false -> Forall (fun kb => snd kb = false) ks) /\
        mapM (g2_indexToNode g) ids = Ok ps /\ map fst ks = flat_map (mids_at keq p_default mid ss) ps /\
        (forall p, rse = Some p -> exists a b, r_startPoint p_default r = Ok a /\ keq a p = true /\
           r_endPoint p_default r = Ok b /\ keq b p = true) /\
        exists L, Forall2 (node p_default keq mid ss g) ids L /\ (forall l, In l L <-> fst l < n) /\ NoDup L /\
          chain (mid_ok redirect) L /\ (forall a, nth_error L 0 = Some a -> is_mid a = false) /\
          (forall a, nth_error L (length L - 1) = Some a -> is_mid a = false) /\ ks = windows L.
  Proof.
    intro HI. destruct (create_ok p_default keq mid far Heq ss rse Inv Hans sbc redirect sg eq_refl HI) as (g & sg1 & Eg & I1).
    exists g, sg1. split; auto. split; auto.
    assert (Hn : 0 < n) by (unfold n; destruct ss; [congruence|simpl; lia]).
    assert (Hg : exists g1, adds keq g2_empty (arcs_inner p_default mid redirect ss) g1 /\
      adds keq g1 (flat_map (arcs_depot p_default (depot_of far rse)) ss) g) by (eapply adds_coverage; eauto).
    assert (Hdiff' : pairwise_different keq (depot_of far rse :: flat_map (swath_nodes p_default mid) ss)) by exact Hdiff.
    destruct (cov_graph p_default keq mid far Heq ss rse redirect Hdiff' (fun _ _ => 0%Z) g Hg Hn)
      as (N & HN & B1 & B2 & B3 & B4 & B5 & B6 & B7 & B8 & B9).
    assert (Hlab : forall ids L, NoDup ids -> (forall i, i < N -> In i ids) ->
      Forall2 (node p_default keq mid ss g) ids L -> (forall l, In l L -> fst l < n) ->
      NoDup L /\ (forall l, fst l < n -> In l L)).
    { intros ids L ND Hall HF HV. split.
      - clear Hall. induction HF as [|i l ids L Hil HF IH]; constructor.
        + intro Hin. inversion ND as [|? ? Hx ND']; subst. apply In_nth_error in Hin. destruct Hin as [j Hj].
          destruct (forall2_nth _ _ _ HF j l Hj) as (i' & Hi' & Hil'). assert (i = i') by (eapply B4; eauto). subst i'.
          apply Hx. eapply nth_error_In; eauto.
        + apply IH; [inversion ND; auto|]. intros x Hx. apply HV. right; auto.
      - intros l Hl. destruct (B2 l Hl) as (i & Hi & Hil). destruct (forall2_in _ _ _ HF i (Hall i Hi)) as (l' & Hl' & Hil').
        rewrite (B3 i l l'); auto. }
    assert (HN3 : N = 3 * n).
    { destruct (labels_of (node p_default keq mid ss g) n N B1 (seq 0 N)) as (L & HF & HV).
      { intros i Hi. apply in_seq in Hi. lia. }
      destruct (Hlab (seq 0 N) L (seq_NoDup N 0)) as [ND Hall]; auto. { intros i Hi. apply in_seq. lia. }
      assert (HP : Permutation L all_labels).
      { apply NoDup_Permutation; auto using all_labels_nodup. intro l. rewrite all_labels_in. split; auto. }
      apply Permutation_length in HP. rewrite <- (Forall2_length HF), seq_length in HP.
      unfold all_labels in HP. rewrite prod_length, seq_length in HP. simpl length in HP. lia. }
    split; [lia|]. split.
    { rewrite <- HN3. apply (tour_exists N g); auto. }
    intros ids [HP HA]. rewrite <- HN3 in HP, HA.
    assert (Hlt : forall i, In i ids -> i < N) by (intros i Hi; apply (Permutation_in _ HP) in Hi; apply in_seq in Hi; lia).
    destruct (labels_of (node p_default keq mid ss g) n N B1 ids Hlt) as (L & HF & HV).
    assert (NDi : NoDup ids) by (eapply Permutation_NoDup; [symmetry; exact HP|apply seq_NoDup]).
    destruct (Hlab ids L NDi) as [ND Hall]; auto.
    { intros i Hi. apply (Permutation_in _ (Permutation_sym HP)). apply in_seq. lia. }
    pose proof (Permutation_length HP) as Hlen. rewrite seq_length in Hlen.
    assert (Hnth : forall i l, nth_error L i = Some l -> exists x, nth_error (N :: ids ++ [N]) (S i) = Some x /\
      nth_error ids i = Some x /\ node p_default keq mid ss g x l).
    { intros i l Hl. destruct (forall2_nth _ _ _ HF i l Hl) as (x & Hx & Hxl). exists x. split; auto.
      simpl. rewrite nth_error_app1; auto. apply nth_error_Some. congruence. }
    assert (HC : chain (mid_ok redirect) L).
    { assert (G : forall i a b, nth_error L i = Some a -> nth_error L (S i) = Some b -> mid_ok redirect a b).
      { intros i a b Ha Hb. destruct (Hnth i a Ha) as (x & Hx & _ & Nx), (Hnth (S i) b Hb) as (y & Hy & _ & Ny).
        destruct (HA _ _ _ Hx Hy) as [c Hc]. eapply B5; [| |exact Nx|exact Ny|exact Hc]; apply HV; eapply nth_error_In; eauto. }
      clear - G. induction L as [|a t IH]; simpl; auto. destruct t as [|b t]; auto. split.
      - apply (G 0); auto.
      - apply IH. intros i x y Hx Hy. apply (G (S i)); auto. }
    assert (HFst : forall a, nth_error L 0 = Some a -> is_mid a = false).
    { intros a Ha. destruct (Hnth 0 a Ha) as (x & Hx & _ & Nx). destruct (HA 0 N x eq_refl Hx) as [c Hc].
      assert (snd a <> KMid). { eapply B6; [|exact Nx|exact Hc]. apply HV. eapply nth_error_In; eauto. }
      unfold is_mid. destruct (snd a); congruence. }
    pose proof (Forall2_length HF) as HlenL.
    assert (HLst : forall a, nth_error L (length L - 1) = Some a -> is_mid a = false).
    { intros a Ha. destruct (Hnth _ a Ha) as (x & Hx & Hx' & Nx).
      assert (Hlast : nth_error (N :: ids ++ [N]) (S (S (length L - 1))) = Some N).
      { change (nth_error (ids ++ [N]) (S (length L - 1)) = Some N). rewrite <- HlenL. replace (S (length ids - 1)) with (length ids) by lia. rewrite nth_error_app2, Nat.sub_diag by lia. auto. }
      destruct (HA _ x N Hx Hlast) as [c Hc].
      assert (snd a <> KMid). { eapply B7; [|exact Nx|exact Hc]. apply HV. eapply nth_error_In; eauto. }
      unfold is_mid. destruct (snd a); congruence. }
    assert (Hmid : forall k, k < n -> In (k, KMid) L) by (intros k Hk; apply Hall; auto).
    assert (Hinj : forall l l', fst l < n -> fst l' < n -> keq (pt p_default mid ss l) (pt p_default mid ss l') = true -> l = l')
      by (intros; eapply (pt_inj p_default keq mid far Heq ss rse); eauto).
    assert (Hok1 : Forall (fun s => w_nonpos (sw_width s) = false) ss) by (eapply Forall_impl; [|exact Hok]; simpl; tauto).
    assert (Hok2 : Forall (fun s => sw_path s <> []) ss) by (eapply Forall_impl; [|exact Hok]; simpl; tauto).
    assert (Hok3 : Forall (fun s => keq (wkt (first s)) (first s) = true /\ keq (wkt (final s)) (final s) = true) ss)
      by (eapply Forall_impl; [|exact Hok]; simpl; tauto).
    assert (Hrse : forall p l, rse = Some p -> fst l < n -> keq p (pt p_default mid ss l) = false).
    { intros p l Hp Hl. pose proof (pt_depot p_default keq mid far ss rse Hdiff' l Hl) as F. rewrite Hp in F. exact F. }
    destruct (transform_ok p_default w_nonpos w_zero wkt keq mid Heq ss Hinj Hok1 Hok2 Hok3 rse Inv Hans Hrse g ids L redirect
      HF HV ND HC HFst HLst Hmid sg1 sbc eq_refl Hn ltac:(lia) I1) as (r & sg2 & Et & I2 & Cr & Hse).
    assert (Hps : exists ps, mapM (g2_indexToNode g) ids = Ok ps).
    { clear - HF. induction HF as [|i l ids L (p & Hp & _) HF [ps IH]]; simpl; [eauto|]. rewrite Hp, IH. simpl. eauto. }
    destruct Hps as [ps Hps].
    pose proof (windows_perm n redirect L ND HC HFst HLst Hmid HV) as HW.
    exists r, sg2, (windows L), ps. split; auto. split; auto. split; auto. split.
    { rewrite Cr. apply driven_all. intros k Hk. apply (Permutation_in _ HW) in Hk. apply in_seq in Hk. unfold n in Hk. lia. }
    split; [apply (windows_forward redirect L); auto|]. split; auto. split; [eapply mids_order; eauto|].
    split; [exact Hse|]. exists L. split; auto. split; [intro l; split; auto|]. auto 6.
  Qed.

  Lemma complete sg : Inv sg ->
    exists g sg1, createCoverageGraph p_default keq mid far rse sbc sg redirect = Ok (g, sg1) /\ Inv sg1 /\
      g2_numNodes g = 3 * n + 1 /\ (exists ids, round_tour (g_edges (g2_graph g)) (3 * n) ids) /\
      forall ids, round_tour (g_edges (g2_graph g)) (3 * n) ids ->
      exists r sg2 ks ps, transformSolutionToRoute p_default w_nonpos w_zero wkt keq rse ids sbc g sg1 = Ok (r, sg2) /\ Inv sg2 /\
        Permutation (map fst ks) (seq 0 n) /\
        Forall2 (driven wkt ss) (concat (r_swaths r)) ks /\
        (redirect = false -> Forall (fun kb => snd kb = false) ks) /\
        mapM (g2_indexToNode g) ids = Ok ps /\ map fst ks = flat_map (mids_at keq p_default mid ss) ps /\
        (forall p, rse = Some p -> exists a b, r_startPoint p_default r = Ok a /\ keq a p = true /\
           r_endPoint p_default r = Ok b /\ keq b p = true).
  Proof.
    intro HI. destruct (complete_tours sg HI) as (g & sg1 & A1 & A2 & A3 & A4 & H). exists g, sg1. repeat (split; auto).
    intros ids Hids. destruct (H ids Hids) as (r & sg2 & ks & ps & B1 & B2 & B3 & B4 & B5 & B6 & B7 & B8 & _).
    exists r, sg2, ks, ps. auto 12.
  Qed.
End Main.
