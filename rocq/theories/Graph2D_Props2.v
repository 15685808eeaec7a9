(** Theorems about all routes between two points (property C242). *)
From Coq Require Import List Arith ZArith Lia Bool Permutation.
From Verif Require Import Outcome ListAux Graph_Model Graph_Spec Graph_Proofs Graph_Proofs2
  Graph_Proofs3 Graph_Proofs4 Graph_Props Graph2D_Model Graph2D_Spec Graph2D_Proofs Graph2D_Proofs2 Graph2D_Props.
Import ListNotations.

Section AllPaths.
  Context {P : Type}.
  Variable keq : P -> P -> bool.
  Variable dist_cost : P -> P -> Z.
  Hypothesis Heq : equivalence keq.

  (** The nodes are points that were given to an insertion. *)
  Lemma linked_inserted h g : g2_run keq dist_cost h = Ok g -> exists pts h', linked keq dist_cost h pts g h' /\ incl pts (inserted h).
  Proof.
    revert g. induction h as [|o h IH] using rev_ind; intros g E.
    - unfold g2_run in E. simpl in E. assert (g = g2_empty) by congruence. subst.
      exists [], []. split; [apply linked_empty|intros x []].
    - unfold g2_run in *. rewrite foldM_app in E. bok E. simpl in E. bok E.
      assert (r0 = g) by congruence. subst r0. destruct (IH r E0) as (pts & h' & HL & HI).
      destruct (linked_step keq dist_cost Heq _ _ _ _ _ _ HL E1) as [op HL']. do 2 eexists. split; [exact HL'|].
      unfold inserted in *. rewrite flat_map_app. cbn [flat_map]. rewrite app_nil_r.
      assert (A : forall a b, incl (addpts keq pts a b) (flat_map op_points h ++ [a; b])).
      { intros a b x Hx. unfold addpts in Hx. apply in_ins in Hx. destruct Hx as [Hx| ->]; [|apply in_or_app; right; simpl; auto].
        apply in_ins in Hx. destruct Hx as [Hx| ->]; apply in_or_app; [left; auto|right; simpl; auto]. }
      unfold g2op_pts. destruct o; cbn [op_points]; try apply A; rewrite app_nil_r; exact HI.
  Qed.

  Section Linked.
    Variables (h : list (g2op P)) (pts : list P) (g : graph2d P) (h' : list gop).
    Hypothesis HL : linked keq dist_cost h pts g h'.

    (** Indices of the points of a route. *)
    Lemma route_back l c : pt_route keq dist_cost h l c -> forall p, hd_error l = Some p -> (exists i, pidx keq p pts = Some i) ->
      exists is, Forall2 (fun i q => pidx keq q pts = Some i) is l /\ route (edge_in (g_edges (g2_graph g))) is c.
    Proof.
      intro H. induction H as [p|p q l c c' Hc Hr IH]; intros p0 Hp0 [i Hi]; cbn [hd_error] in Hp0; injection Hp0 as <-.
      - exists [i]. split; [repeat constructor; auto|constructor].
      - destruct (l_edge_idx keq dist_cost Heq h pts g h' HL p q c Hc) as (i' & j & E1 & E2 & E3).
        assert (i' = i) by congruence. subst i'.
        destruct (IH q eq_refl (ex_intro _ j E2)) as (is & F & G). exists (i :: is). split; [constructor; auto|].
        inversion F as [|j' q' is' l' Ej F']; subst. assert (j' = j) by congruence. subst j'.
        constructor; auto. apply (l_look keq dist_cost h pts g h' HL). exact E3.
    Qed.

    Lemma pick_inj i j p : distinct keq pts -> nth_error pts i = Some p -> nth_error pts j = Some p -> i = j.
    Proof.
      intros D Hi Hj. pose proof (pidx_at keq Heq pts i p p D Hi (proj1 Heq p)).
      pose proof (pidx_at keq Heq pts j p p D Hj (proj1 Heq p)). congruence.
    Qed.
  End Linked.

  Lemma pick_mapM pts (g : graph2d P) : rep2 keq pts g -> forall l, mapM (g2_indexToNode g) l =
    mapM (fun k => match nth_error pts k with Some p => Ok p | None => Throw OutOfRange end) l.
  Proof. intro HR. induction l as [|x l IH]; cbn [mapM]; auto. rewrite IH, (indexToNode_rep keq pts _ x HR). auto. Qed.

  Lemma last_nth {A} (l : list A) : hd_error (rev l) = nth_error l (length l - 1).
  Proof.
    destruct l as [|x l] using rev_ind; auto. rewrite rev_app_distr, app_length. simpl. rewrite nth_error_app2 by lia.
    replace (length l + 1 - 1 - length l) with 0 by lia. auto.
  Qed.

  Lemma Forall2_nth {A B} (Q : A -> B -> Prop) l l' : Forall2 Q l l' ->
    forall k b, nth_error l' k = Some b -> exists a, nth_error l k = Some a /\ Q a b.
  Proof. induction 1 as [|x y l l' H F IH]; intros [|k] b Hk; try discriminate; simpl in *; [injection Hk as <-; eauto|auto]. Qed.

  (** C242: for a graph made of two-way edges, the result lists every route between the two points that visits no
      point twice exactly once, as a list of inserted points; a point that was never inserted is an error. *)
  Theorem point_all_paths (enum : list (nat * Z) -> list nat) : (forall m, Permutation (enum m) (map fst m)) ->
    forall h g a b, forallb two_way h = true -> g2_run keq dist_cost h = Ok g ->
    ((exists p, In p (inserted h) /\ keq p a = true) -> (exists p, In p (inserted h) /\ keq p b = true) ->
     exists res, g2_allPathsBetween keq enum g a b = Ok res /\
     (forall l, In l res -> (exists c, pt_route keq dist_cost h l c) /\ incl l (inserted h) /\
        ForallOrdPairs (fun p q => keq p q = false) l /\
        exists p q, hd_error l = Some p /\ keq p a = true /\ hd_error (rev l) = Some q /\ keq q b = true) /\
     (forall l c p q, pt_route keq dist_cost h l c -> ForallOrdPairs (fun p q => keq p q = false) l ->
        hd_error l = Some p -> keq p a = true -> hd_error (rev l) = Some q -> keq q b = true ->
        exists l', In l' res /\ Forall2 (fun x y => keq x y = true) l' l) /\
     (forall i j l l', nth_error res i = Some l -> nth_error res j = Some l' -> Forall2 (fun x y => keq x y = true) l l' -> i = j)) /\
    ((forall p, In p (inserted h) -> keq p a = false) \/ (forall p, In p (inserted h) -> keq p b = false) ->
     g2_allPathsBetween keq enum g a b = Throw OutOfRange).
  Proof.
    intros He h g a b HU E. destruct (linked_inserted h g E) as (pts & h' & HL & HI).
    pose proof HL as (HR & H2 & H3 & H4 & H5 & H6 & H7 & H8). pose proof HR as (_ & _ & HD).
    destruct Heq as (Kr & Ks & Kt). split.
    - intros Ha Hb. apply H5 in Ha, Hb. destruct Ha as [i Hi], Hb as [j Hj].
      set (e := g_edges (g2_graph g)).
      pose proof (l_unique keq dist_cost h pts g h' HL) as Hk. pose proof (l_dense keq dist_cost h pts g h' HL HU) as Hd.
      pose proof (l_length keq dist_cost h pts g h' HL HU) as Hlen. fold e in Hk, Hd, Hlen.
      assert (Hi' : i < numNodes e) by (unfold numNodes; rewrite Hlen; apply (idx_lt _ _ _ _ Hi)).
      destruct (all_simple_paths enum He e i j Hk (proj2 Hd) Hi') as (rs & ER & ND & HS).
      unfold g2_allPathsBetween. rewrite !(nodeToIndex_rep keq pts g _ HR), Hi, Hj. cbn [bind]. fold e. rewrite ER. cbn [bind].
      assert (HB : forall r, In r rs -> Forall (fun k => k < length pts) r).
      { intros r Hr. apply HS in Hr. destruct Hr as (_ & Hh & _ & c & Hr). rewrite <- Hlen.
        assert (G : forall l c, route (edge_in e) l c -> forall y, In y (tl l) -> y < length e).
        { intros l c0 Hr0. induction Hr0 as [|u v l c0 c1 Huv Hr0 IH]; intros z Hz; simpl in Hz; [tauto|].
          destruct Hz as [<-|Hz]; [eapply (proj2 Hd); eauto|]. apply IH. auto. }
        destruct r as [|x r]; [constructor|]. injection Hh as ->. constructor; [exact Hi'|].
        apply Forall_forall. intros y Hy. exact (G _ _ Hr y Hy). }
      (* the images *)
      assert (M : exists res, mapM (mapM (g2_indexToNode g)) rs = Ok res /\ length res = length rs /\
        forall k r, nth_error rs k = Some r -> exists l, nth_error res k = Some l /\ Forall2 (fun i p => nth_error pts i = Some p) r l).
      { clear - HB HR. induction rs as [|r rs IH]; [exists []; repeat split; intros [|k] r Hr; discriminate|].
        destruct IH as (res & E & L & N); [intros r' Hr'; apply HB; right; auto|].
        assert (F : exists l, mapM (g2_indexToNode g) r = Ok l /\ Forall2 (fun i p => nth_error pts i = Some p) r l).
        { rewrite (pick_mapM pts g HR). specialize (HB r (or_introl eq_refl)). clear - HB. induction r as [|x r IH]; [exists []; split; auto; constructor|].
          destruct IH as (l & E & F); [eapply Forall_inv_tail; eauto|]. apply Forall_inv in HB. cbn [mapM].
          destruct (nth_error pts x) as [p|] eqn:Ep; [|apply nth_error_None in Ep; lia]. cbn [bind]. rewrite E. cbn [bind]. exists (p :: l). split; auto. }
        destruct F as (l & El & F). exists (l :: res). change (mapM (mapM (g2_indexToNode g)) (r :: rs)) with
          (do y <- mapM (g2_indexToNode g) r; do t <- mapM (mapM (g2_indexToNode g)) rs; Ok (y :: t)). rewrite El. cbn [bind]. rewrite E. cbn [bind].
        split; [reflexivity|]. split; [simpl; lia|].
        intros [|k] r0 Hr0; cbn [nth_error] in *; [injection Hr0 as <-; eauto|auto]. }
      destruct M as (res & EM & LM & NM). exists res. split; [exact EM|].
      assert (NM' : forall k l, nth_error res k = Some l -> exists r, nth_error rs k = Some r /\ Forall2 (fun i p => nth_error pts i = Some p) r l).
      { intros k l Hl. assert (K : k < length rs) by (rewrite <- LM; apply nth_error_Some; congruence).
        destruct (nth_error rs k) as [r|] eqn:Er; [|apply nth_error_None in Er; lia]. destruct (NM k r Er) as (l0 & El & F).
        assert (l0 = l) by congruence. subst. eauto. }
      assert (FL : forall r l (Q : nat -> P -> Prop), Forall2 Q r l -> length r = length l) by (intros r l Q F; induction F; simpl; auto).
      split; [|split].
      + intros l Hl. apply In_nth_error in Hl. destruct Hl as [k Hl]. destruct (NM' k l Hl) as (r & Er & F).
        pose proof (HB r (nth_error_In _ _ Er)) as HBr. apply nth_error_In, HS in Er. destruct Er as (N & Hh & Ht & c & Hr).
        split; [|split; [|split]].
        * exists c. destruct (l_route keq dist_cost h pts g h' HL r c Hr HBr) as (ps & M1 & M2 & _ & _).
          assert (ps = l); [|subst; exact M2]. clear - F M1. revert ps M1. induction F as [|x p r l Hp F IH]; intros ps M1; cbn [mapM] in M1; [congruence|].
          rewrite Hp in M1. cbn [bind] in M1. bok M1. injection M1 as <-. rewrite (IH _ E). reflexivity.
        * intros x Hx. apply HI. apply In_nth_error in Hx. destruct Hx as [m Hx]. destruct (Forall2_nth _ _ _ F m x Hx) as (z & _ & Hz).
          eapply nth_error_In; eauto.
        * clear - F N HD Heq Kr Ks Kt. induction F as [|x p r l Hp F IH]; [constructor|]. inversion N as [|? ? N1 N2]; subst. constructor; [|auto].
          apply Forall_forall. intros q Hq. apply In_nth_error in Hq. destruct Hq as [m Hq]. destruct (Forall2_nth _ _ _ F m q Hq) as (z & Hz & Hzq).
          destruct (keq p q) eqn:Epq; auto. exfalso. apply N1.
          assert (Hx : pidx keq q pts = Some x) by (eapply (pidx_at keq Heq); eauto).
          assert (Hz' : pidx keq q pts = Some z) by (eapply (pidx_at keq Heq); eauto).
          assert (x = z) by congruence. subst. eapply nth_error_In; eauto.
        * assert (Hlh : hd_error l = nth_error pts i). { destruct F as [|x p r l Hp F]; [discriminate|]. injection Hh as ->. cbn. auto. }
          assert (Hlt : hd_error (rev l) = nth_error pts j).
          { rewrite last_nth in Ht. rewrite last_nth. rewrite <- (FL _ _ _ F). destruct (nth_error l (length r - 1)) as [q|] eqn:Eq.
            - destruct (Forall2_nth _ _ _ F _ _ Eq) as (z & Hz & Hzq). rewrite Ht in Hz. injection Hz as <-. auto.
            - apply nth_error_None in Eq. rewrite <- (FL _ _ _ F) in Eq. assert (length r - 1 < length r) by (apply nth_error_Some; congruence). lia. }
          destruct (pidx_Some _ _ _ _ Hi) as (x & Hx & Hxa). destruct (pidx_Some _ _ _ _ Hj) as (y & Hy & Hyb).
          exists x, y. rewrite Hlh, Hlt. auto.
      + intros l c p q Hr ND' Hh Hpa Ht Hqb.
        assert (Hpi : pidx keq p pts = Some i).
        { destruct (pidx_Some _ _ _ _ Hi) as (x & Hx & Hxa). apply (pidx_at keq Heq pts i x p HD Hx). apply (Kt x a p); auto. rewrite Ks; auto. }
        assert (Hqj : pidx keq q pts = Some j).
        { destruct (pidx_Some _ _ _ _ Hj) as (x & Hx & Hxb). apply (pidx_at keq Heq pts j x q HD Hx). apply (Kt x b q); auto. rewrite Ks; auto. }
        destruct (route_back h pts g h' HL l c Hr p Hh (ex_intro _ i Hpi)) as (is & F & G).
        assert (SP : simple_path (edge_in e) i j is).
        { split; [|split; [|split; [|exists c; exact G]]].
          - clear - F ND' HD Heq Ks Kt. induction F as [|x p r l Hp F IH]; [constructor|]. inversion ND' as [|? ? N1 N2]; subst. constructor; [|auto].
            intro Hin. apply In_nth_error in Hin. destruct Hin as [m Hm].
            assert (exists q, nth_error l m = Some q /\ pidx keq q pts = Some x) as (q & Hq & Hqx).
            { clear - F Hm. revert m Hm. induction F as [|x' p r l Hp F IH]; intros [|m] Hm; try discriminate; cbn in *; [injection Hm as ->; eauto|auto]. }
            assert (K : keq p q = true).
            { destruct (pidx_Some _ _ _ _ Hp) as (u & Hu & Hup). destruct (pidx_Some _ _ _ _ Hqx) as (v & Hv & Hvq).
              assert (u = v) by congruence. subst v. apply (Kt p u q); auto. rewrite Ks; auto. }
            rewrite Forall_forall in N1. rewrite (N1 q (nth_error_In _ _ Hq)) in K. discriminate.
          - destruct F as [|x p' r l' Hp F]; [discriminate|]. injection Hh as ->. cbn. congruence.
          - rewrite last_nth in Ht. rewrite last_nth. rewrite (FL _ _ _ F). destruct (Forall2_nth _ _ _ F _ _ Ht) as (z & Hz & Hzq). rewrite Hz. congruence. }
        apply HS in SP. apply In_nth_error in SP. destruct SP as [k Ek]. destruct (NM k is Ek) as (l' & El' & F').
        exists l'. split; [eapply nth_error_In; eauto|].
        clear - F F' HD Heq Ks Kt. revert l' F'. induction F as [|x p r l Hp F IH]; intros l' F'; inversion F' as [|? u ? l0 Hu F'']; subst; constructor; auto.
        destruct (pidx_Some _ _ _ _ Hp) as (v & Hv & Hvp). congruence.
      + intros k k' l l' Hl Hl' HF. destruct (NM' k l Hl) as (r & Er & F). destruct (NM' k' l' Hl') as (r' & Er' & F').
        assert (r = r').
        { clear - F F' HF HD Heq. revert r r' F F'. induction HF as [|p q l l' Hpq HF IH]; intros r r' F F'; inversion F; inversion F'; subst; auto.
          f_equal; [|apply IH; auto].
          match goal with A : nth_error pts ?x = Some p, B : nth_error pts ?y = Some q |- _ =>
            pose proof (pidx_at keq Heq pts x p q HD A Hpq); pose proof (pidx_at keq Heq pts y q q HD B (proj1 Heq q)); congruence end. }
        subst r'. rewrite NoDup_nth_error in ND. apply ND; [apply nth_error_Some; congruence|congruence].
    - intros Hn. unfold g2_allPathsBetween. rewrite !(nodeToIndex_rep keq pts g _ HR).
      assert (K : forall x, (forall p, In p (inserted h) -> keq p x = false) -> pidx keq x pts = None).
      { intros x Hx. destruct (pidx keq x pts) as [k|] eqn:Ek; auto. exfalso. assert (exists k, pidx keq x pts = Some k) as Hk by eauto.
        apply H5 in Hk. destruct Hk as (q & Hq & Hqx). rewrite (Hx q Hq) in Hqx. discriminate. }
      destruct Hn as [Hn|Hn]; apply K in Hn; rewrite Hn; cbn [bind]; auto. destruct (pidx keq a pts); reflexivity.
  Qed.
End AllPaths.
Print Assumptions point_all_paths.

(** A square 10, 20, 30, 40 with one diagonal removed again. *)
Example point_all_paths_ex : equivalence Nat.eqb /\ (forall m : list (nat * Z), Permutation (map fst m) (map fst m)) /\
  forallb two_way (ex_h1 ++ [G2Add 40 10 7]) = true /\
  exists g, g2_run Nat.eqb ex_dist (ex_h1 ++ [G2Add 40 10 7]) = Ok g /\
    g2_allPathsBetween Nat.eqb (map fst) g 10 30 = Ok [[10; 20; 30]; [10; 40; 30]] /\
    g2_allPathsBetween Nat.eqb (map fst) g 10 10 = Ok [[10]] /\
    g2_allPathsBetween Nat.eqb (map fst) g 10 50 = Throw OutOfRange.
Proof.
  split; [apply nat_equivalence|]. split; [reflexivity|]. split; [reflexivity|].
  eexists. split; [vm_compute; reflexivity|]. repeat split; vm_compute; reflexivity.
Qed.
