(** Theorems about point graphs and point keys. *)
From Coq Require Import List Arith ZArith Lia Bool Floats Reals Lra.
From Verif Require Import Outcome Num ListAux Graph_Model Graph_Spec Graph_Proofs Graph_Proofs2
  Graph_Proofs3 Graph_Proofs4 Graph_Props Point_Model
  Graph2D_Model Graph2D_Spec Graph2D_Proofs Graph2D_Proofs2.
Import ListNotations.

(** ** Points and indices *)

(** C21: [pts] lists the nodes in order of first insertion. *)
Theorem point_index_bijection :
  forall (P : Type) (keq : P -> P -> bool) (dist_cost : P -> P -> Z),
  equivalence keq ->
  forall h g, g2_run keq dist_cost h = Ok g ->
  exists pts,
    g2_numNodes g = length pts /\
    (forall k p, nth_error pts k = Some p ->
       g2_indexToNode g k = Ok p /\ g2_nodeToIndex keq g p = Ok k) /\
    (forall p k, g2_nodeToIndex keq g p = Ok k ->
       exists q, g2_indexToNode g k = Ok q /\ keq q p = true) /\
    (forall k, g2_numNodes g <= k -> g2_indexToNode g k = Throw OutOfRange) /\
    (forall p, (exists k, g2_nodeToIndex keq g p = Ok k) <->
       exists q, In q (inserted h) /\ keq q p = true) /\
    (forall p, (forall q, In q (inserted h) -> keq q p = false) ->
       g2_nodeToIndex keq g p = Throw OutOfRange).
Proof.
  intros P keq dc Heq h g E. destruct (linked_run keq dc Heq h g E) as (pts & h' & HL).
  pose proof HL as (HR & _ & _ & _ & H5 & _). exists pts.
  assert (Hn : g2_numNodes g = length pts).
  { destruct HR as (H1 & _). unfold g2_numNodes. rewrite H1. unfold N2I.
    rewrite combine_length, seq_length, Nat.min_id. auto. }
  split; auto. split; [|split; [|split; [|split]]].
  - intros k p Hk. rewrite (indexToNode_rep keq pts g k HR), (nodeToIndex_rep keq pts g p HR), Hk. split; auto.
    rewrite (pidx_at keq Heq pts k p p); auto; [apply HR|apply Heq].
  - intros p k Hk. rewrite (nodeToIndex_rep keq pts g p HR) in Hk.
    destruct (pidx keq p pts) as [k'|] eqn:Ek; [|discriminate]. assert (k' = k) by congruence. subst k'.
    destruct (pidx_Some keq p pts k Ek) as (q & Hq & Hqp). exists q.
    rewrite (indexToNode_rep keq pts g k HR), Hq. auto.
  - intros k Hk. rewrite (indexToNode_rep keq pts g k HR).
    destruct (nth_error pts k) eqn:En; auto. assert (k < length pts) by (apply nth_error_Some; congruence). lia.
  - intro p. rewrite <- H5, (nodeToIndex_rep keq pts g p HR). split.
    + intros [k Hk]. destruct (pidx keq p pts) as [k'|]; [eauto|discriminate].
    + intros [k ->]. eauto.
  - intros p Hp. rewrite (nodeToIndex_rep keq pts g p HR). destruct (pidx keq p pts) as [k|] eqn:Ek; auto.
    exfalso. assert (exists k, pidx keq p pts = Some k) as Hx by eauto. apply H5 in Hx.
    destruct Hx as (q & Hq & Hqp). rewrite (Hp q Hq) in Hqp. discriminate.
Qed.
Print Assumptions point_index_bijection.

(** C21: an index, once given, stays. *)
Theorem point_index_stable :
  forall (P : Type) (keq : P -> P -> bool) (dist_cost : P -> P -> Z),
  equivalence keq ->
  forall h h2 g g2, g2_run keq dist_cost h = Ok g -> g2_run keq dist_cost (h ++ h2) = Ok g2 ->
  (forall p k, g2_nodeToIndex keq g p = Ok k -> g2_nodeToIndex keq g2 p = Ok k) /\
  (forall k p, g2_indexToNode g k = Ok p -> g2_indexToNode g2 k = Ok p) /\
  g2_numNodes g <= g2_numNodes g2.
Proof.
  intros P keq dc Heq h h2 g g2 E E2. destruct (linked_run keq dc Heq h g E) as (pts & h' & HL).
  unfold g2_run in E, E2. rewrite foldM_app, E in E2. simpl in E2.
  destruct (linked_mono keq dc Heq _ _ _ _ _ _ HL E2) as (t & h2' & HL2).
  destruct HL as (HR & _), HL2 as (HR2 & _).
  split; [|split].
  - intros p k. rewrite (nodeToIndex_rep keq _ _ p HR), (nodeToIndex_rep keq _ _ p HR2).
    destruct (pidx keq p pts) eqn:Ep; [|discriminate]. rewrite (pidx_prefix _ _ _ _ _ Ep). auto.
  - intros k p. rewrite (indexToNode_rep keq _ _ k HR), (indexToNode_rep keq _ _ k HR2).
    destruct (nth_error pts k) eqn:Ek; [|discriminate]. rewrite (nth_prefix _ _ _ _ Ek). auto.
  - destruct HR as (H1 & _), HR2 as (H3 & _). unfold g2_numNodes. rewrite H1, H3. unfold N2I.
    rewrite !combine_length, !seq_length, !Nat.min_id, app_length. lia.
Qed.
Print Assumptions point_index_stable.

Lemma nat_equivalence : equivalence Nat.eqb.
Proof.
  split; [apply Nat.eqb_refl|]. split; [apply Nat.eqb_sym|].
  intros p q r H1 H2. apply Nat.eqb_eq in H1, H2. subst. apply Nat.eqb_refl.
Qed.

(** Points 10, 20, ...; distance cost is the difference. *)
Definition ex_h : list (g2op nat) :=
  [G2Add 10 20 5; G2AddDist 20 30; G2Cost 10 30 1000; G2Add 30 40 2; G2Add 10 40 99; G2Path 40 10 1000].
Definition ex_dist (a b : nat) : Z := Z.abs (Z.of_nat a - Z.of_nat b).

Example point_index_ex :
  equivalence Nat.eqb /\
  exists g g2, g2_run Nat.eqb ex_dist (firstn 3 ex_h) = Ok g /\ g2_run Nat.eqb ex_dist (firstn 3 ex_h ++ skipn 3 ex_h) = Ok g2 /\
    g2_nodeToIndex Nat.eqb g 30 = Ok 2 /\ g2_nodeToIndex Nat.eqb g2 40 = Ok 3 /\
    g2_nodeToIndex Nat.eqb g 40 = Throw OutOfRange /\ g2_indexToNode g2 3 = Ok 40 /\
    g2_indexToNode g2 4 = Throw OutOfRange.
Proof.
  split; [apply nat_equivalence|]. eexists. eexists. split; [vm_compute; reflexivity|].
  split; [vm_compute; reflexivity|]. vm_compute. repeat split.
Qed.

(** ** Edges and shortest paths over points *)

(** C87: graphs built from two-way edges: both queries are defined, the cost is
    the least cost of a point route, and the returned points are such a route. *)
Theorem point_shortest_path :
  forall (P : Type) (keq : P -> P -> bool) (dist_cost : P -> P -> Z),
  equivalence keq ->
  forall h1 h2 g INF a b,
  let h := h1 ++ h2 in
  forallb two_way h = true ->
  forallb (fun o => negb (is_query o)) h1 = true -> forallb (fun o => negb (is_removal o)) h2 = true ->
  g2_run keq dist_cost h = Ok g ->
  (forall I, In I (g2_infs h) -> I = INF) ->
  (0 < INF <= 4611686018427387904)%Z ->
  (forall p q c, g2_edge keq dist_cost h p q = Some c -> (0 <= c < INF)%Z) ->
  (exists p, In p (inserted h) /\ keq p a = true) ->
  (exists p, In p (inserted h) /\ keq p b = true) ->
  exists g1 g2 path c,
    g2_shortestPathCost keq g a b INF = Ok (g1, c) /\
    g2_shortestPath keq g a b INF = Ok (g2, path) /\
    (0 <= c <= INF)%Z /\
    (forall l c' p q, pt_route keq dist_cost h l c' ->
       hd_error l = Some p -> keq p a = true -> hd_error (rev l) = Some q -> keq q b = true ->
       (c' < INF)%Z -> (c <= c')%Z) /\
    (path = [] <-> keq a b = true \/ c = INF) /\
    (path <> [] -> pt_route keq dist_cost h path c /\
       exists p q, hd_error path = Some p /\ keq p a = true /\
                   hd_error (rev path) = Some q /\ keq q b = true).
Proof.
  intros P keq dc Heq h1 h2 g INF a b h HU HQ1 HQ2 E HI HINF Hc Ha Hb.
  destruct (linked_run keq dc Heq h g E) as (pts & h' & HL).
  pose proof HL as (HR & H2 & H3 & H4 & H5 & H6 & H7 & H8).
  assert (HCA : cache_ok (fun x => x = INF) (g2_graph g)).
  { apply (cache_g2_hist keq dc Heq _ h1 h2); auto. intros I HI'. apply HI. unfold h, g2_infs. rewrite flat_map_app. apply in_or_app. auto. }
  set (e := g_edges (g2_graph g)) in *.
  pose proof (l_unique keq dc h pts g h' HL) as Hk. pose proof (l_dense keq dc h pts g h' HL HU) as Hd.
  pose proof (l_length keq dc h pts g h' HL HU) as Hlen. fold e in Hk, Hd, Hlen.
  assert (HC : costs_ok INF e).
  { split; [lia|]. intros i j c Hij. apply (l_look keq dc h pts g h' HL) in Hij.
    apply (l_edge_pts keq dc h pts g h' HL) in Hij. destruct Hij as (p & q & _ & _ & Hpq). eauto. }
  apply H5 in Ha. apply H5 in Hb. destruct Ha as [i Hi], Hb as [j Hj].
  pose proof (idx_lt _ _ _ _ Hi) as Li. pose proof (idx_lt _ _ _ _ Hj) as Lj.
  destruct (answer_cost _ (g2_graph g) i j INF eq_refl HCA) as (I1 & -> & A1).
  destruct (answer_path _ (g2_graph g) i j INF eq_refl HCA) as (I2 & -> & A2). unfold fresh in A1, A2.
  fold e in A1, A2.
  assert (Hi' : i < numNodes e) by (unfold numNodes; rewrite Hlen; auto).
  assert (Hj' : j < numNodes e) by (unfold numNodes; rewrite Hlen; auto).
  destruct (shortest_cost_minimal e INF i j Hk Hd HC Hi' Hj') as (g1 & c & B1 & B2 & B3).
  destruct (shortest_path_correct e INF i j Hk Hd HC Hi' Hj') as (g2 & g3 & p & c' & C1 & C2 & C3 & C4).
  rewrite B1 in C2. assert (c' = c) by congruence. subst c'.
  rewrite B1 in A1. rewrite C1 in A2. unfold answer in A1, A2. cbn [bind snd] in A1, A2.
  unfold g2_shortestPathCost, g2_shortestPath.
  rewrite !(nodeToIndex_rep keq pts g _ HR), Hi, Hj. cbn [bind].
  destruct (shortestPathCost (g2_graph g) i j INF) as [[g1' c1]| | |]; try discriminate.
  destruct (shortestPath (g2_graph g) i j INF) as [[g2' p1]| | |]; try discriminate.
  cbn [bind snd fst] in *. assert (c1 = c) by congruence. assert (p1 = p) by congruence. subst c1 p1.
  destruct B2 as [B2 B4].
  assert (HR' : rep2 keq pts (mkGraph2D g2' (g2_n2i g) (g2_i2n g))) by exact HR.
  assert (Hmap : exists ps, mapM (g2_indexToNode (mkGraph2D g2' (g2_n2i g) (g2_i2n g))) p = Ok ps /\
    (p <> [] -> pt_route keq dc h ps c) /\ length ps = length p /\
    (forall k, nth_error ps k = match nth_error p k with Some i => nth_error pts i | None => None end)).
  { assert (Hext : forall l, mapM (g2_indexToNode (mkGraph2D g2' (g2_n2i g) (g2_i2n g))) l =
      mapM (fun k => match nth_error pts k with Some p => Ok p | None => Throw OutOfRange end) l).
    { induction l as [|x l IH]; simpl; auto. rewrite IH, (indexToNode_rep keq pts _ x HR'). auto. }
    rewrite Hext. destruct p as [|x p].
    - exists []. split; [reflexivity|]. split; [congruence|]. split; auto. intros [|k]; auto.
    - destruct C4 as [(S1 & S2 & S3 & _) S5]; [discriminate|].
      assert (HF : Forall (fun k => k < length pts) (x :: p)).
      { simpl in S2. assert (x = i) by congruence. subst x. rewrite <- Hlen.
        apply Forall_forall. intros y [<-|Hy]; [auto|].
        assert (G : forall l c, route (edge_in e) l c -> forall y, In y (tl l) -> y < length e).
        { intros l c0 Hr. induction Hr as [|u v l c0 c1 Huv Hr IH]; intros z Hz; simpl in Hz; [tauto|].
          destruct Hz as [<-|Hz]; [eapply (proj2 Hd); eauto|]. apply IH. auto. }
        eapply G; eauto. }
      destruct (l_route keq dc h pts g h' HL (x :: p) c S5 HF) as (ps & M1 & M2 & M3 & M4).
      exists ps. auto. }
  destruct Hmap as (ps & M1 & M2 & M3 & M4). rewrite M1. cbn [bind].
  assert (Hnil : ps = [] <-> p = []) by (destruct ps, p; simpl in M3; try discriminate; split; congruence).
  do 2 eexists. exists ps, c. split; [reflexivity|]. split; [reflexivity|].
  assert (Hwalk : forall u v x, walk (edge_in e) u v x -> (0 <= x)%Z).
  { intros u v x Hw. induction Hw as [|u m v x y Hx Hw IH]; [lia|]. apply (proj2 HC) in Hx. lia. }
  assert (HcI : (0 <= c <= INF)%Z) by (destruct B2 as [[B2 B5]|B2]; [apply Hwalk in B5|]; lia). split; [auto|]. split; [|split].
  - intros l c' p0 q0 Hr Hh Hp0 Hl Hq0 Hlt. apply B4; auto.
    assert (Hp0i : pidx keq p0 pts = Some i).
    { destruct (pidx_Some _ _ _ _ Hi) as (x & Hx & Hxa). eapply (pidx_at keq Heq); eauto; [apply HR|].
      destruct Heq as (_ & Ks & Kt). apply (Kt x a p0); auto. rewrite Ks; auto. }
    destruct (l_walk keq dc Heq h pts g h' HL l c' Hr p0 Hh i Hp0i q0 Hl) as (j' & Hj0 & Hw).
    assert (j' = j); [|subst; auto].
    destruct (pidx_Some _ _ _ _ Hj) as (x & Hx & Hxb).
    assert (pidx keq q0 pts = Some j); [|congruence].
    eapply (pidx_at keq Heq); eauto; [apply HR|].
    destruct Heq as (_ & Ks & Kt). apply (Kt x b q0); auto. rewrite Ks; auto.
  - rewrite Hnil, C3.
    assert (Hab : keq a b = true <-> i = j).
    { destruct (pidx_Some _ _ _ _ Hj) as (x & Hx & Hxb).
      destruct Heq as (Kr & Ks & Kt).
      assert (Hax : keq a x = (i =? j)) by (eapply pidx_keq; eauto; [split; auto|apply HR]).
      split.
      - intro H. apply Nat.eqb_eq. rewrite <- Hax. apply (Kt a b x); auto. rewrite Ks; auto.
      - intros ->. rewrite Nat.eqb_refl in Hax. apply (Kt a x b); auto. }
    split; intros [H|H]; auto.
    + left. apply Hab. auto.
    + right. destruct B2 as [[B2 B5]|B2]; auto. apply H in B5. lia.
    + left. apply Hab. auto.
    + right. intros c' Hw. destruct (Z_lt_le_dec c' INF); auto. apply B4 in Hw; lia.
  - intro Hne. assert (Hp : p <> []) by tauto. split; auto.
    destruct (C4 Hp) as [(S1 & S2 & S3 & _) _].
    assert (F0 : hd_error ps = nth_error pts i).
    { destruct p as [|x p]; [congruence|]. specialize (M4 0). simpl in M4, S2.
      assert (x = i) by congruence. subst. rewrite <- M4. destruct ps; auto. }
    assert (F1 : hd_error (rev ps) = nth_error pts j).
    { assert (Hrev : forall A (l : list A), hd_error (rev l) = nth_error l (length l - 1)).
      { intros A l. destruct l as [|x l] using rev_ind; auto.
        rewrite rev_app_distr, app_length. simpl. rewrite nth_error_app2 by lia.
        replace (length l + 1 - 1 - length l) with 0 by lia. auto. }
      rewrite Hrev, M4, M3. rewrite Hrev in S3. rewrite S3. auto. }
    destruct (pidx_Some _ _ _ _ Hi) as (x & Hx & Hxa).
    destruct (pidx_Some _ _ _ _ Hj) as (y & Hy & Hyb).
    exists x, y. rewrite F0, F1. auto.
Qed.
Print Assumptions point_shortest_path.

(** Edits with a removal, then queries mixed with more edges. *)
Definition ex_h1 : list (g2op nat) := [G2AddDist 10 20; G2AddDist 20 30; G2AddDist 10 40; G2Remove 10 40; G2AddDist 30 40].
Definition ex_h2 : list (g2op nat) := [G2Path 10 30 1000; G2AddDist 40 50; G2Cost 50 10 1000].

Example point_shortest_path_ex :
  equivalence Nat.eqb /\ forallb two_way (ex_h1 ++ ex_h2) = true /\
  forallb (fun o => negb (is_query o)) ex_h1 = true /\ forallb (fun o => negb (is_removal o)) ex_h2 = true /\
  (forall I, In I (g2_infs (ex_h1 ++ ex_h2)) -> I = 1000%Z) /\
  (forall p q c, g2_edge Nat.eqb ex_dist (ex_h1 ++ ex_h2) p q = Some c -> (0 <= c < 1000)%Z) /\
  In 40 (inserted (ex_h1 ++ ex_h2)) /\ In 10 (inserted (ex_h1 ++ ex_h2)) /\
  exists g, g2_run Nat.eqb ex_dist (ex_h1 ++ ex_h2) = Ok g /\
    answer (g2_shortestPathCost Nat.eqb g 40 10 1000) = Ok (ex_dist 40 30 + ex_dist 30 20 + ex_dist 20 10)%Z /\
    answer (g2_shortestPath Nat.eqb g 40 10 1000) = Ok [40; 30; 20; 10].
Proof.
  split; [apply nat_equivalence|]. split; [reflexivity|]. split; [reflexivity|]. split; [reflexivity|].
  split; [simpl; intros I [<-|[<-|[]]]; auto|]. split.
  { intros p q c. unfold g2_edge. simpl.
    repeat match goal with |- context [if ?b then _ else _] => destruct b end;
    intro H; try discriminate; match type of H with Some ?z = _ => assert (c = z) by congruence end; subst c; unfold ex_dist; simpl; lia. }
  split; [simpl; tauto|]. split; [simpl; tauto|].
  eexists. split; [vm_compute; reflexivity|]. split; vm_compute; reflexivity.
Qed.

(** C87: one-way edges to a node without outgoing edges make every query
    undefined, although every point is known. *)
Theorem point_query_safe_refuted :
  exists g, g2_run Nat.eqb ex_dist [G2AddDirected 10 20 5] = Ok g /\
    g2_nodeToIndex Nat.eqb g 20 = Ok 1 /\
    g2_shortestPathCost Nat.eqb g 10 20 g2_INF = UB /\ g2_shortestPath Nat.eqb g 10 20 g2_INF = UB.
Proof. eexists. split; [vm_compute; reflexivity|]. repeat split; vm_compute; reflexivity. Qed.
Print Assumptions point_query_safe_refuted.

(** ** Points as keys *)

(** C22 fails: equal points with different hashes; equality that is not
    transitive; a hash that is undefined behaviour. *)
Theorem point_key_refuted :
  (exists p q : point FNum, p_eq FNum p q = true /\ exists a b, p_hash p = Ok a /\ p_hash q = Ok b /\ a <> b) /\
  (exists p q r : point FNum, p_eq FNum p q = true /\ p_eq FNum q r = true /\ p_eq FNum p r = false) /\
  (exists p : point FNum, p_eq FNum p p = true /\ p_hash p = UB).
Proof.
  split; [|split].
  - exists (@mkPoint FNum 0.5 3 0)%float, (@mkPoint FNum 0.5 (3 + 0x1p-25) 0)%float.
    split; [vm_compute; reflexivity|]. do 2 eexists.
    split; [vm_compute; reflexivity|]. split; [vm_compute; reflexivity|]. discriminate.
  - exists (@mkPoint FNum 0.25 0 0)%float, (@mkPoint FNum (0.25 + 0x1p-24) 0 0)%float, (@mkPoint FNum (0.25 + 0x1p-23) 0 0)%float.
    split; [vm_compute; reflexivity|]. split; vm_compute; reflexivity.
  - exists (@mkPoint FNum (-1) 0 0)%float. split; vm_compute; reflexivity.
Qed.
Print Assumptions point_key_refuted.

(** Consequence for the graph: the number of nodes depends on the order of
    insertion, for points that all share one hash value. *)
Theorem point_nodes_order_refuted :
  exists p q r : point FNum, p_hash p = Ok 0%Z /\ p_hash q = Ok 0%Z /\ p_hash r = Ok 0%Z /\
  (do g <- g2_run (p_eq FNum) (fun _ _ => 1%Z) [G2Add p q 1; G2Add q r 1]; Ok (g2_numNodes g)) = Ok 2 /\
  (do g <- g2_run (p_eq FNum) (fun _ _ => 1%Z) [G2Add q p 1; G2Add q r 1]; Ok (g2_numNodes g)) = Ok 1.
Proof.
  exists (@mkPoint FNum 0.25 0 0)%float, (@mkPoint FNum (0.25 + 0x1p-24) 0 0)%float, (@mkPoint FNum (0.25 + 0x1p-23) 0 0)%float.
  split; [vm_compute; reflexivity|]. split; [vm_compute; reflexivity|]. split; [vm_compute; reflexivity|].
  split; vm_compute; reflexivity.
Qed.
Print Assumptions point_nodes_order_refuted.

(** C88: on a grid of spacing at least 1e-7, [==] is identity of points, hence
    an equivalence, and equal points have equal hashes whatever the hash. *)
Definition grid (s : R) (k : Z * Z * Z) : point RNum :=
  @mkPoint RNum (s * IZR (fst (fst k)))%R (s * IZR (snd (fst k)))%R (s * IZR (snd k))%R.

Lemma grid_coord (s : R) (a b : Z) : (s >= 1 / 10000000)%R ->
  Rltb (Rabs (s * IZR a - s * IZR b)) (1 / 10000000) = Z.eqb a b.
Proof.
  intro Hs. destruct (Z.eqb_spec a b) as [->|Hne].
  - apply Rltb_true. replace (s * IZR b - s * IZR b)%R with 0%R by lra. rewrite Rabs_R0. lra.
  - apply Rltb_false. replace (s * IZR a - s * IZR b)%R with (s * IZR (a - b))%R by (rewrite minus_IZR; lra).
    rewrite Rabs_mult, (Rabs_right s) by lra.
    assert (1 <= Rabs (IZR (a - b)))%R.
    { rewrite <- abs_IZR. apply IZR_le. lia. }
    apply Rle_trans with (s * 1)%R; [lra|]. apply Rmult_le_compat_l; lra.
Qed.

Theorem grid_points_equal :
  forall s, (s >= 1 / 10000000)%R ->
  (forall a b, p_eq RNum (grid s a) (grid s b) = true <-> grid s a = grid s b) /\
  equivalence (fun a b => p_eq RNum (grid s a) (grid s b)).
Proof.
  intros s Hs.
  assert (H : forall a b, p_eq RNum (grid s a) (grid s b) = true <-> a = b).
  { intros [[a1 a2] a3] [[b1 b2] b3]. unfold p_eq, grid, p_eps. simpl.
    rewrite !grid_coord by auto. rewrite !andb_true_iff, !Z.eqb_eq. split; intuition congruence. }
  split.
  - intros a b. rewrite H. split; [intros ->; auto|].
    destruct a as [[a1 a2] a3], b as [[b1 b2] b3]. unfold grid. simpl. intro E.
    assert (E1 := f_equal px E). assert (E2 := f_equal py E). assert (E3 := f_equal pz E). simpl in *.
    apply Rmult_eq_reg_l in E1; [|lra]. apply Rmult_eq_reg_l in E2; [|lra]. apply Rmult_eq_reg_l in E3; [|lra].
    apply eq_IZR in E1, E2, E3. congruence.
  - split; [intro; apply H; auto|]. split.
    + intros p q. destruct (p_eq RNum (grid s p) (grid s q)) eqn:E1, (p_eq RNum (grid s q) (grid s p)) eqn:E2; auto.
      * apply H in E1. subst. rewrite (proj2 (H q q) eq_refl) in E2. auto.
      * apply H in E2. subst. rewrite (proj2 (H p p) eq_refl) in E1. auto.
    + intros p q r H1 H2. apply H in H1, H2. subst. apply H. auto.
Qed.
Print Assumptions grid_points_equal.

Example grid_points_equal_ex : p_eq RNum (grid (1 / 1000) (1, 2, 3)%Z) (grid (1 / 1000) (1, 2, 4)%Z) = false.
Proof.
  destruct (p_eq RNum _ _) eqn:E; [|reflexivity]. apply grid_points_equal in E; [|lra]. apply (f_equal (@pz RNum)) in E.
  cbn in E. lra.
Qed.
