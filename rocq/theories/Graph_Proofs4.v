(** Cached matrices along arbitrary call histories. *)
From Coq Require Import List Arith ZArith Lia Bool Permutation.
From Verif Require Import Outcome ListAux Graph_Model Graph_Spec Graph_Proofs Graph_Proofs2 Graph_Proofs3.
Import ListNotations.

(** ** Shapes *)

Lemma mset_length {A} (m : list (list A)) i j v m' : mset m i j v = Ok m' -> length m' = length m.
Proof.
  unfold mset. destruct (vec_index m i); simpl; try discriminate.
  destruct (vec_set a j v); simpl; try discriminate. intro H. apply vec_set_len in H. auto.
Qed.

Lemma foldM_inv {A S} (f : S -> A -> outcome S) (I : S -> Prop) :
  (forall s a s', I s -> f s a = Ok s' -> I s') ->
  forall l s s', I s -> foldM f l s = Ok s' -> I s'.
Proof.
  intro H. induction l as [|a l IH]; intros s s' Hs E.
  - simpl in E. congruence.
  - cbn [foldM] in E. destruct (f s a) as [s1| | |] eqn:E1; try discriminate. cbn [bind] in E.
    eapply IH; [|exact E]. eapply H; eauto.
Qed.

Lemma bind_Ok {A B} (o : outcome A) (f : A -> outcome B) b :
  bind o f = Ok b -> exists a, o = Ok a /\ f a = Ok b.
Proof. destruct o; simpl; try discriminate. eauto. Qed.

Ltac bok H :=
  let a := fresh "r" in let E := fresh "E" in
  apply bind_Ok in H; destruct H as (a & E & H).

Definition shape (n : nat) (dn : list (list Z) * list (list Z)) : Prop :=
  length (fst dn) = n /\ length (snd dn) = n.

Lemma init_direct_shape n e dn dn' : shape n dn -> init_direct e dn = Ok dn' -> shape n dn'.
Proof.
  unfold init_direct. apply foldM_inv. intros s a s' Hs E. bok E. bok E.
  assert (H : shape n r).
  { revert E0. apply foldM_inv; auto. intros s1 a1 s1' H1 H2. bok H2. bok H2.
    assert (s1' = (r1, r2)) by congruence. subst. apply mset_length in E0, E2.
    destruct H1. split; simpl; congruence. }
  assert (s' = (r0, snd r)) by congruence. subst. apply mset_length in E1.
  destruct H. split; simpl; congruence.
Qed.

Lemma fw_shape n INF dn dn' : shape n dn -> floyd_warshall INF n dn = Ok dn' -> shape n dn'.
Proof.
  unfold floyd_warshall. apply foldM_inv. intros s k s' Hs. apply foldM_inv; auto.
  clear s s' Hs. intros s i s' Hs. apply foldM_inv; auto. clear s s' Hs.
  intros [dist next] j s' Hs E. unfold fw_body in E.
  bok E. destruct (r <? INF)%Z; [|congruence].
  bok E. destruct (r0 <? INF)%Z; [|congruence].
  bok E. bok E. destruct (r2 <? r1)%Z; [|congruence].
  bok E. bok E. bok E. apply mset_length in E4, E6. assert (s' = (r3, r5)) by congruence. subst.
  destruct Hs. split; simpl in *; congruence.
Qed.

Lemma reconstruct_shape INF n next dist dist' :
  reconstruct_loop INF n next dist = Ok dist' -> length dist' = length dist.
Proof.
  unfold reconstruct_loop. revert dist'. assert (H0 : length dist = length dist) by auto. revert H0. generalize dist at 1 3. intros d0 H0 dist'. revert H0.
  intros H0. apply (foldM_inv _ (fun d => length d = length dist)); auto. clear d0 H0.
  intros s i s' Hs. apply (foldM_inv _ (fun d => length d = length dist)); auto.
  clear s s' Hs. intros s j s' Hs E.
  unfold reconstruct_body in E. destruct (i =? j); [congruence|]. bok E.
  destruct (r =? -1)%Z; [apply mset_length in E; congruence|]. bok E. congruence.
Qed.

Lemma shortest_shape e INF dist next : shortestPathsAndCosts e INF = Ok (dist, next) ->
  length dist = length e /\ length next = length e.
Proof.
  unfold shortestPathsAndCosts, initializeMatrices, numNodes. intro H. bok H. bok H. bok H.
  assert (shape (length e) r).
  { eapply init_direct_shape; [|exact E]. split; apply repeat_length. }
  apply (fw_shape (length e)) in E0; auto. apply reconstruct_shape in E1. destruct E0.
  assert (dist = r1 /\ next = snd r0) as [-> ->] by (split; congruence). split; congruence.
Qed.

(** ** Path matrix *)

Lemma all_paths_ok n next pf :
  length next = n ->
  (forall i j, i < n -> j < n -> reconstructPath next i j = Ok (pf i j)) ->
  exists sp, all_shortest_paths n next = Ok sp /\ rep n sp pf.
Proof.
  intros Hn H. unfold all_shortest_paths.
  match goal with |- exists sp, foldM ?F _ _ = _ /\ _ =>
    destruct (foldM_seq F (fun i sp => rep n sp (mix i 0 pf (fun _ _ => []))) n 0 (mat_const n []))
      as (sp & Esp & Hsp) end.
  - intros i sp [_ Hi] Hsp.
    match goal with |- exists s', foldM ?F _ _ = _ /\ _ =>
      destruct (foldM_seq F (fun j sp => rep n sp (mix i j pf (fun _ _ => []))) n 0 sp) as (sp' & -> & Hsp') end; auto.
    + intros j s [_ Hj] Hs. specialize (H i j Hi Hj). unfold reconstructPath in H. rewrite Hn in H.
      destruct (Nat.eqb_spec i j) as [->|Hne].
      { exists s. split; auto. eapply rep_ext; [exact Hs|]. intros a b Ha Hb. unfold mix.
        destruct (Nat.ltb_spec a j); auto. destruct (Nat.eqb_spec a j); auto. simpl. subst a.
        destruct (Nat.ltb_spec b j), (Nat.ltb_spec b (S j)); auto; try lia.
        assert (b = j) by lia. subst b. congruence. }
      destruct (mget next i j) as [z| | |]; try discriminate. cbn [bind] in *.
      destruct (z =? -1)%Z.
      { exists s. split; auto. eapply rep_ext; [exact Hs|]. intros a b Ha Hb. unfold mix.
        destruct (Nat.ltb_spec a i); auto. destruct (Nat.eqb_spec a i); auto. simpl. subst a.
        destruct (Nat.ltb_spec b j), (Nat.ltb_spec b (S j)); auto; try lia.
        assert (b = j) by lia. subst b. congruence. }
      destruct (follow n next i j) as [p| | |]; try discriminate. cbn [bind] in *.
      destruct (mset_rep _ _ _ i j (i :: p) Hs Hi Hj) as (s' & -> & Hs'). exists s'. split; auto.
      eapply rep_ext; [exact Hs'|]. intros a b Ha Hb. cbv beta. unfold mix.
      destruct (Nat.eqb_spec a i) as [->|]; simpl.
      * rewrite Nat.ltb_irrefl. simpl.
        destruct (Nat.eqb_spec b j) as [->|].
        -- destruct (Nat.ltb_spec j (S j)); [congruence|lia].
        -- destruct (Nat.ltb_spec b j), (Nat.ltb_spec b (S j)); auto; lia.
      * rewrite !orb_false_r. auto.
    + exists sp'. split; auto. eapply rep_ext; [exact Hsp'|]. intros a b Ha Hb. unfold mix.
      destruct (Nat.ltb_spec a i), (Nat.ltb_spec a (S i)); simpl; auto; try lia.
      * assert (a = i) by lia. subst a. rewrite Nat.eqb_refl. 
destruct (Nat.ltb_spec b n); auto. lia.
      * destruct (Nat.eqb_spec a i); [lia|]. destruct (Nat.eqb_spec a (S i)); auto.
  - eapply rep_ext; [apply mat_const_rep|]. intros a b _ _. unfold mix. simpl.
    rewrite andb_false_r. auto.
  - exists sp. split; auto. eapply rep_ext; [exact Hsp|]. intros a b Ha Hb. unfold mix.
    destruct (Nat.ltb_spec a (0 + n)); auto. lia.
Qed.

(** ** Cache invariant *)

(** Everything cached was computed from the current edges; [P] holds of the INF
    values used for it. *)
Definition cache_ok (P : Z -> Prop) (g : graph) : Prop :=
  (g_dist g = [] /\ g_next g = [] \/
   exists I0, P I0 /\ shortestPathsAndCosts (g_edges g) I0 = Ok (g_dist g, g_next g)) /\
  (g_paths g = [] \/
   g_next g <> [] /\
   exists I1 d nx, P I1 /\ shortestPathsAndCosts (g_edges g) I1 = Ok (d, nx) /\
     all_shortest_paths (length (g_edges g)) nx = Ok (g_paths g)).

Lemma cache_fill (P : Z -> Prop) g INF g' : P INF -> cache_ok P g -> g_fill g INF = Ok g' ->
  cache_ok P g' /\ g_edges g' = g_edges g /\ g_paths g' = g_paths g /\
  shortestPathsAndCosts (g_edges g) INF = Ok (g_dist g', g_next g').
Proof.
  intros HP [H1 H2] E. unfold g_fill in E. bok E. destruct r as [dist next]. simpl in E.
  assert (g' = mkGraph (g_edges g) (g_paths g) dist next) by congruence. subst g'. simpl.
  split; [|auto]. split; simpl; [right; eauto|].
  destruct H2 as [H2|(H2 & H3)]; auto. right. split; auto.
  apply shortest_shape in E0. destruct H1 as [[_ H1]|(I0 & _ & H1)]; [contradiction|].
  apply shortest_shape in H1. destruct (g_next g); [contradiction|]. simpl in H1.
  intro; subst next. simpl in E0. lia.
Qed.

Lemma cache_add P g a b c : cache_ok P g -> cache_ok P (addDirectedEdge g a b c).
Proof.
  intros [H1 H2]. unfold addDirectedEdge.
  destruct (is_nil (g_next g)) eqn:En, (is_nil (g_dist g)) eqn:Ed; simpl;
    try (split; left; simpl; auto; fail).
  destruct (g_next g) eqn:En'; [|discriminate]. destruct (g_dist g) eqn:Ed'; [|discriminate].
  split; simpl; auto. destruct H2 as [|[H2 _]]; auto. congruence.
Qed.

Lemma cache_empty P : cache_ok P graph_empty.
Proof. split; simpl; auto. Qed.

(** INF values a call may fill the caches with. *)
Definition op_infs (o : gop) : list Z :=
  match o with
  | ORecompute i => [i]
  | OCosts | OPaths => [INF_default]
  | OPath _ _ i | OCost _ _ i => [i]
  | _ => []
  end.

Definition op_is_remove (o : gop) : bool :=
  match o with ORemoveDirected _ _ | ORemove _ _ => true | _ => false end.

Lemma cache_step (P : Z -> Prop) g o g' : (forall i, In i (op_infs o) -> P i) ->
  op_is_remove o = false -> cache_ok P g -> run_op g o = Ok g' -> cache_ok P g'.
Proof.
  intros HP Hr HC E. destruct o; simpl in *; try discriminate.
  - assert (g' = addDirectedEdge g from to cost) by congruence. subst. apply cache_add; auto.
  - assert (g' = addEdge g i j cost) by congruence. subst. apply cache_add, cache_add; auto.
  - eapply cache_fill; eauto.
  - bok E. unfold getCosts in E0. bok E0. assert (r = (r0, g_dist r0)) by congruence. subst r.
    simpl in E. assert (g' = r0) by congruence. subst.
    destruct (is_nil (g_dist g)); [eapply cache_fill; eauto|congruence].
  - bok E. assert (g' = fst r) by congruence. subst g'. clear E. unfold getPaths in E0. bok E0.
    assert (Hr0 : cache_ok P r0) by (destruct (is_nil (g_next g)); [eapply cache_fill; eauto|congruence]).
    destruct (is_nil (g_paths r0)) eqn:Ep.
    + bok E0. assert (r = (mkGraph (g_edges r0) r1 (g_dist r0) (g_next r0), r1)) by congruence. subst r. simpl.
      destruct Hr0 as [H1 H2]. split; simpl; auto.
      destruct r1 as [|x r1]; auto. right.
      assert (Hx : g_next r0 <> []).
      { intro Hx. destruct H1 as [[_ H1]|(I0 & _ & H1)].
        - destruct (is_nil (g_next g)) eqn:Eg.
          + apply (cache_fill P) in E; auto. destruct E as (E2 & E3 & E4 & E5).
            apply shortest_shape in E5. rewrite E3 in E1. unfold numNodes in E1.
            rewrite Hx in E5. simpl in E5. destruct E5 as [_ E5]. rewrite <- E5 in E1.
            simpl in E1. discriminate.
          + assert (g = r0) by congruence. subst. rewrite Hx in Eg. discriminate.
        - apply shortest_shape in H1. rewrite Hx in H1. simpl in H1. destruct H1 as [_ H1].
          unfold numNodes in E1. rewrite <- H1 in E1. simpl in E1. discriminate. }
      split; auto. destruct H1 as [[_ H1]|(I0 & HI0 & H1)]; [contradiction|].
      exists I0, (g_dist r0), (g_next r0). auto.
    + assert (r = (r0, g_paths r0)) by congruence. subst. auto.
  - bok E. assert (g' = fst r) by congruence. subst g'. clear E. unfold shortestPath in E0. bok E0. bok E0.
    assert (r = (r0, r1)) by congruence. subst r. simpl.
    destruct (_ && _) in E; [eapply cache_fill; eauto|congruence].
  - bok E. assert (g' = fst r) by congruence. subst g'. clear E. unfold shortestPathCost in E0. bok E0. bok E0.
    assert (r = (r0, r1)) by congruence. subst r. simpl.
    destruct (_ && _) in E; [eapply cache_fill; eauto|congruence].
Qed.

Definition hist_infs (h : list gop) : list Z := flat_map op_infs h.

Lemma foldM_app {A S} (f : S -> A -> outcome S) l1 l2 s :
  foldM f (l1 ++ l2) s = bind (foldM f l1 s) (foldM f l2).
Proof.
  revert s. induction l1 as [|a l1 IH]; intro s; simpl; auto.
  destruct (f s a); simpl; auto.
Qed.

Lemma cache_hist (P : Z -> Prop) h g : (forall i, In i (hist_infs h) -> P i) ->
  forallb (fun o => negb (op_is_remove o)) h = true -> run_ops h = Ok g -> cache_ok P g.
Proof.
  unfold run_ops. assert (H0 := cache_empty P). revert H0. generalize graph_empty.
  induction h as [|o h IH]; intros g0 H0 HP Hr E; simpl in E; [congruence|].
  bok E. simpl in Hr. apply andb_true_iff in Hr. destruct Hr as [Hr1 Hr2].
  apply (IH r); auto.
  - eapply cache_step; eauto.
    + intros i Hi. apply HP. simpl. apply in_or_app. auto.
    + destruct (op_is_remove o); auto.
  - intros i Hi. apply HP. simpl. apply in_or_app. auto.
Qed.

(** ** Edges along a history *)

(** What each call does to the edge map. *)
Definition edges_step (e : list (nat * list (nat * Z))) (o : gop) :=
  match o with
  | OAddDirected a b c => edges_add e a b c
  | OAdd a b c => edges_add (edges_add e a b c) b a c
  | ORemoveDirected a b => edges_remove e a b
  | ORemove a b => edges_remove (edges_remove e a b) b a
  | _ => e
  end.

Lemma g_fill_edges g INF g' : g_fill g INF = Ok g' -> g_edges g' = g_edges g.
Proof. unfold g_fill. intro H. bok H. assert (g' = mkGraph (g_edges g) (g_paths g) (fst r) (snd r)) by congruence. subst. auto. Qed.

Lemma addDirectedEdge_edges g a b c : g_edges (addDirectedEdge g a b c) = edges_add (g_edges g) a b c.
Proof. unfold addDirectedEdge. destruct (_ || _); auto. Qed.

Lemma run_op_edges g o g' : run_op g o = Ok g' -> g_edges g' = edges_step (g_edges g) o.
Proof.
  intro E. destruct o; simpl in E; simpl edges_step.
  - assert (g' = addDirectedEdge g from to cost) by congruence. subst. apply addDirectedEdge_edges.
  - assert (g' = addEdge g i j cost) by congruence. subst. unfold addEdge.
    rewrite !addDirectedEdge_edges. auto.
  - assert (g' = removeDirectedEdge g from to) by congruence. subst. auto.
  - assert (g' = removeEdge g i j) by congruence. subst. auto.
  - eapply g_fill_edges; eauto.
  - bok E. unfold getCosts in E0. bok E0. assert (r = (r0, g_dist r0)) by congruence. subst r. simpl in E.
    assert (g' = r0) by congruence. subst.
    destruct (is_nil _); [eapply g_fill_edges; eauto|congruence].
  - bok E. assert (g' = fst r) by congruence. subst g'. unfold getPaths in E0. bok E0.
    assert (g_edges r0 = g_edges g) by (destruct (is_nil (g_next g)); [eapply g_fill_edges; eauto|congruence]).
    destruct (is_nil (g_paths r0)); [bok E0|];
      [assert (r = (mkGraph (g_edges r0) r1 (g_dist r0) (g_next r0), r1)) by congruence|
       assert (r = (r0, g_paths r0)) by congruence]; subst r; auto.
  - bok E. assert (g' = fst r) by congruence. subst g'. unfold shortestPath in E0. bok E0. bok E0.
    assert (r = (r0, r1)) by congruence. subst r. simpl.
    destruct (_ && _) in E1; [eapply g_fill_edges; eauto|congruence].
  - bok E. assert (g' = fst r) by congruence. subst g'. unfold shortestPathCost in E0. bok E0. bok E0.
    assert (r = (r0, r1)) by congruence. subst r. simpl.
    destruct (_ && _) in E1; [eapply g_fill_edges; eauto|congruence].
Qed.

Lemma edges_step_unique e o : keys_unique e -> keys_unique (edges_step e o).
Proof.
  destruct o; simpl; auto using keys_unique_add, keys_unique_remove.
Qed.

Lemma hist_unique h g : run_ops h = Ok g -> keys_unique (g_edges g).
Proof.
  unfold run_ops. apply (foldM_inv run_op (fun g => keys_unique (g_edges g))).
  - intros s o s' H E. rewrite (run_op_edges _ _ _ E). apply edges_step_unique; auto.
  - split; simpl; [constructor|tauto].
Qed.

(** Cost of edge (i, j) after a history, read off the history alone. *)
Definition op_cost (i j : nat) (o : gop) (old : option Z) : option Z :=
  match o with
  | OAddDirected a b c => if (a =? i) && (b =? j) then Some c else old
  | OAdd a b c => if (a =? i) && (b =? j) || (b =? i) && (a =? j) then Some c else old
  | ORemoveDirected a b => if (a =? i) && (b =? j) then None else old
  | ORemove a b => if (a =? i) && (b =? j) || (b =? i) && (a =? j) then None else old
  | _ => old
  end.

Lemma look_step e o i j : keys_unique e -> look (edges_step e o) i j = op_cost i j o (look e i j).
Proof.
  intro Hk. destruct o; simpl; auto.
  - apply look_add.
  - rewrite !look_add. destruct ((j0 =? i) && (i0 =? j)), ((i0 =? i) && (j0 =? j)); auto.
  - apply look_remove; auto.
  - rewrite !look_remove by auto using keys_unique_remove.
    destruct ((j0 =? i) && (i0 =? j)), ((i0 =? i) && (j0 =? j)); auto.
Qed.

Lemma hist_look h g i j : run_ops h = Ok g ->
  look (g_edges g) i j = fold_left (fun old o => op_cost i j o old) h None.
Proof.
  unfold run_ops.
  assert (H0 : look (g_edges graph_empty) i j = None) by reflexivity.
  assert (K0 : keys_unique (g_edges graph_empty)) by (split; simpl; [constructor|tauto]).
  revert H0 K0. generalize graph_empty, (@None Z).
  induction h as [|o h IH]; intros g0 old H0 K0 E; simpl in E.
  - simpl. congruence.
  - bok E. simpl. apply (IH r); auto.
    + rewrite (run_op_edges _ _ _ E0), look_step, H0; auto.
    + rewrite (run_op_edges _ _ _ E0). apply edges_step_unique; auto.
Qed.

(** ** Answers from valid caches *)

Definition answer {S A} (o : outcome (S * A)) : outcome A := do r <- o; Ok (snd r).
Definition fresh (e : list (nat * list (nat * Z))) : graph := mkGraph e [] [] [].

Lemma answer_cost (P : Z -> Prop) g i j INF : P INF -> cache_ok P g ->
  exists I0, P I0 /\ answer (shortestPathCost g i j INF) = answer (shortestPathCost (fresh (g_edges g)) i j I0).
Proof.
  intros HP [[[H1 H2]|(I0 & HI & H1)] _].
  - exists INF. split; auto. unfold shortestPathCost, fresh. simpl. rewrite H1. simpl.
    destruct (g_edges g) as [|p l] eqn:Ee; simpl; auto; [rewrite H1; destruct (mget (@nil (list Z)) i j); reflexivity|].
    unfold g_fill. simpl. rewrite ?Ee.
    destruct (shortestPathsAndCosts (p :: l) INF) as [[dd nn]| | |]; simpl; auto.
    destruct (mget dd i j); auto.
  - exists I0. split; auto. unfold shortestPathCost, fresh. simpl.
    pose proof (shortest_shape _ _ _ _ H1) as [L1 L2].
    destruct (g_edges g) as [|p l] eqn:Ee; simpl in L1.
    + simpl. destruct (g_dist g); [|discriminate]. destruct (mget (@nil (list Z)) i j); reflexivity.
    + rewrite L1. simpl. unfold g_fill. simpl. rewrite H1. simpl. destruct (mget (g_dist g) i j); auto.
Qed.

Lemma answer_path (P : Z -> Prop) g i j INF : P INF -> cache_ok P g ->
  exists I0, P I0 /\ answer (shortestPath g i j INF) = answer (shortestPath (fresh (g_edges g)) i j I0).
Proof.
  intros HP [[[H1 H2]|(I0 & HI & H1)] _].
  - exists INF. split; auto. unfold shortestPath, fresh. simpl. rewrite H1, H2. simpl.
    destruct (g_edges g) as [|p l] eqn:Ee; simpl; auto; [rewrite H2; destruct (reconstructPath [] i j); reflexivity|].
    unfold g_fill. simpl. rewrite ?Ee.
    destruct (shortestPathsAndCosts (p :: l) INF) as [[dd nn]| | |]; simpl; auto.
    destruct (reconstructPath nn i j); auto.
  - exists I0. split; auto. unfold shortestPath, fresh. simpl.
    pose proof (shortest_shape _ _ _ _ H1) as [L1 L2].
    destruct (g_edges g) as [|p l] eqn:Ee; simpl in L1, L2.
    + simpl. destruct (g_next g); [|discriminate]. destruct (reconstructPath [] i j); auto.
    + destruct (g_dist g) eqn:Eg; [discriminate|]. destruct (g_next g) as [|k1 k2] eqn:En; [discriminate|]. simpl.
      unfold g_fill. simpl. rewrite H1. simpl. rewrite En.
      destruct (reconstructPath (k1 :: k2) i j); auto.
Qed.

Lemma answer_costs (P : Z -> Prop) g : P INF_default -> cache_ok P g ->
  exists I0, P I0 /\ answer (getCosts g) = do r <- shortestPathsAndCosts (g_edges g) I0; Ok (fst r).
Proof.
  intros HP [[[H1 H2]|(I0 & HI & H1)] _].
  - exists INF_default. split; auto. unfold getCosts. rewrite H1. simpl. unfold g_fill, answer.
    destruct (shortestPathsAndCosts (g_edges g) INF_default); auto.
  - destruct (g_dist g) eqn:Ed.
    + exists INF_default. split; auto. unfold getCosts. rewrite Ed. simpl. unfold g_fill, answer.
      destruct (shortestPathsAndCosts (g_edges g) INF_default); auto.
    + exists I0. split; auto. unfold getCosts, answer. rewrite Ed. simpl. rewrite Ed, H1. auto.
Qed.

Lemma answer_paths (P : Z -> Prop) g : P INF_default -> cache_ok P g ->
  exists I0, P I0 /\ answer (getPaths g) =
    do r <- shortestPathsAndCosts (g_edges g) I0; all_shortest_paths (length (g_edges g)) (snd r).
Proof.
  intros HP [H1 H2]. unfold getPaths, answer.
  destruct (g_next g) as [|l l0] eqn:En.
  - exists INF_default. split; auto. simpl. unfold g_fill.
    destruct (shortestPathsAndCosts (g_edges g) INF_default) as [[dd nn]| | |]; simpl; auto.
    destruct H2 as [H2|[H2 _]]; [|contradiction]. rewrite H2. simpl. unfold numNodes.
    destruct (all_shortest_paths (length (g_edges g)) nn); auto.
  - destruct H1 as [[_ H1]|(I0 & HI & H1)]; [congruence|].
    destruct H2 as [H2|(_ & I1 & d & nx & HI1 & E1 & E2)].
    + exists I0. split; auto. simpl. rewrite H2. simpl. rewrite H1, En. simpl. unfold numNodes.
      destruct (all_shortest_paths (length (g_edges g)) (l :: l0)); auto.
    + simpl. destruct (g_paths g) eqn:Ep.
      * exists I0. split; auto. simpl. rewrite H1, En. simpl. unfold numNodes.
        destruct (all_shortest_paths (length (g_edges g)) (l :: l0)); auto.
      * exists I1. split; auto. simpl. rewrite E1. simpl. rewrite E2. auto.
Qed.

(** ** Correct answers of a fresh graph *)

Lemma fresh_answers e INF : keys_unique e -> ids_dense e -> costs_ok INF e ->
  exists dist next, shortestPathsAndCosts e INF = Ok (dist, next) /\ good_matrices e INF dist next /\
  forall i j, i < length e -> j < length e ->
    answer (shortestPathCost (fresh e) i j INF) = mget dist i j /\
    answer (shortestPath (fresh e) i j INF) = reconstructPath next i j.
Proof.
  intros Hk Hd Hc. destruct (shortest_ok e INF Hk Hd Hc) as (dist & next & E & HG).
  exists dist, next. split; auto. split; auto. intros i j Hi Hj.
  unfold shortestPathCost, shortestPath, fresh. simpl. unfold numNodes.
  destruct (Nat.ltb_spec 0 (length e)); [|lia]. simpl. unfold g_fill. simpl. rewrite E. simpl.
  unfold answer. split.
  - destruct (mget dist i j); auto.
  - destruct (reconstructPath next i j); auto.
Qed.
