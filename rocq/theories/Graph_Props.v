(** Theorems about f2c::types::Graph. *)
From Coq Require Import List Arith ZArith Lia Bool Permutation.
From Verif Require Import Outcome ListAux Graph_Model Graph_Spec
  Graph_Proofs Graph_Proofs2 Graph_Proofs3 Graph_Proofs4.
Import ListNotations.

(** Test graph: 0-1 (6), 2->3 (1), 0->2 (2), 2-1 (20), 3-0 (5), two zero-cost
    edges 1-4, 4-1 and a zero-cost loop edge at 4. *)
Definition ex_hist : list gop :=
  [OAdd 0 1 6; OAddDirected 2 3 1; OPath 2 2 1000; OAddDirected 0 2 2; OAdd 2 1 20; OAdd 3 0 5;
   OCost 0 3 1000; OAdd 1 4 0; OAddDirected 4 4 0].
Definition ex_edges : list (nat * list (nat * Z)) :=
  [(0, [(1, 6%Z); (2, 2%Z); (3, 5%Z)]); (1, [(0, 6%Z); (2, 20%Z); (4, 0%Z)]);
   (2, [(3, 1%Z); (1, 20%Z)]); (3, [(0, 5%Z)]); (4, [(1, 0%Z); (4, 0%Z)])].

Ltac in_cases := repeat match goal with
  | H : In _ _ |- _ => progress simpl in H
  | H : _ \/ _ |- _ => destruct H
  | H : False |- _ => destruct H
  | H : (_, _) = (_, _) |- _ => inversion H; clear H; subst
  | H : exists _, _ |- _ => destruct H
  | H : _ /\ _ |- _ => destruct H
  end.

Lemma ex_ok : keys_unique ex_edges /\ ids_dense ex_edges /\ costs_ok 1000 ex_edges.
Proof.
  split; [|split].
  - split.
    + simpl. repeat constructor; simpl; intuition lia.
    + intros i m H. unfold ex_edges in H. in_cases; simpl; repeat constructor; simpl; intuition lia.
  - split; unfold edge_in, ex_edges; intros; in_cases; simpl; lia.
  - split; [lia|]. unfold edge_in, ex_edges; intros; in_cases; lia.
Qed.

(** C15 *)
Theorem shortest_cost_minimal :
  forall e INF i j,
  keys_unique e -> ids_dense e -> costs_ok INF e ->
  i < numNodes e -> j < numNodes e ->
  exists g' c, shortestPathCost (mkGraph e [] [] []) i j INF = Ok (g', c) /\
    is_shortest (edge_in e) INF i j c /\ (i = j -> c = 0%Z).
Proof.
  intros e INF i j Hk Hd Hc Hi Hj.
  destruct (fresh_answers e INF Hk Hd Hc) as (dist & next & E & HG & HA).
  destruct (HA i j Hi Hj) as [H1 _].
  destruct (dist_query e INF Hd Hc dist next HG i j Hi Hj) as (c & Hg & Hs).
  fold (fresh e). unfold answer in H1. rewrite Hg in H1.
  destruct (shortestPathCost (fresh e) i j INF) as [[g' c']| | |]; try discriminate.
  simpl in H1. assert (c' = c) by congruence. subst c'.
  exists g', c. split; auto. split; auto. intros ->.
  rewrite (dist_query_diag e INF dist next HG j Hi) in Hg. congruence.
Qed.
Print Assumptions shortest_cost_minimal.

Example shortest_cost_minimal_ex :
  keys_unique ex_edges /\ ids_dense ex_edges /\ costs_ok 1000 ex_edges /\
  answer (shortestPathCost (mkGraph ex_edges [] [] []) 2 4 1000) = Ok 12%Z.
Proof. destruct ex_ok as (A & B & C). repeat (split; [assumption|]). vm_compute. auto. Qed.

(** C16 *)
Theorem shortest_path_correct :
  forall e INF i j,
  keys_unique e -> ids_dense e -> costs_ok INF e ->
  i < numNodes e -> j < numNodes e ->
  exists g1 g2 p c,
    shortestPath (mkGraph e [] [] []) i j INF = Ok (g1, p) /\
    shortestPathCost (mkGraph e [] [] []) i j INF = Ok (g2, c) /\
    (p = [] <-> i = j \/ forall c', walk (edge_in e) i j c' -> (INF <= c')%Z) /\
    (p <> [] -> simple_path (edge_in e) i j p /\ route (edge_in e) p c).
Proof.
  intros e INF i j Hk Hd Hc Hi Hj.
  destruct (fresh_answers e INF Hk Hd Hc) as (dist & next & E & HG & HA).
  destruct (HA i j Hi Hj) as [H1 H2].
  destruct (path_query e INF Hc dist next HG i j Hi Hj) as (p & c & Hp & Hg & Hiff & Hr).
  destruct (dist_query e INF Hd Hc dist next HG i j Hi Hj) as (c0 & Hg0 & [Hs1 Hs2]).
  assert (c0 = c) by congruence. subst c0.
  fold (fresh e). unfold answer in H1, H2. rewrite Hg in H1. rewrite Hp in H2.
  destruct (shortestPathCost (fresh e) i j INF) as [[g2 c']| | |]; try discriminate.
  destruct (shortestPath (fresh e) i j INF) as [[g1 p']| | |]; try discriminate.
  simpl in H1, H2. assert (c' = c) by congruence. assert (p' = p) by congruence. subst c' p'.
  exists g1, g2, p, c. split; auto. split; auto. split; auto. rewrite Hiff. split.
  - intros [->|Hx]; auto. right. intros c' Hw. destruct (Z_lt_le_dec c' INF); auto.
    specialize (Hs2 c' Hw l). lia.
  - intros [->|Hx]; auto. right. destruct Hs1 as [[H3 H4]|]; auto. apply Hx in H4. lia.
Qed.
Print Assumptions shortest_path_correct.

(** The zero-cost cycle 1-4-1 and the loop at 4 do not disturb the walk. *)
Example shortest_path_correct_ex :
  keys_unique ex_edges /\ ids_dense ex_edges /\ costs_ok 1000 ex_edges /\
  answer (shortestPath (mkGraph ex_edges [] [] []) 2 4 1000) = Ok [2; 3; 0; 1; 4] /\
  answer (shortestPath (mkGraph ex_edges [] [] []) 4 4 1000) = Ok [].
Proof. destruct ex_ok as (A & B & C). repeat (split; [assumption|]). vm_compute. auto. Qed.

(** C16: the matrix of all shortest paths holds the same paths, those of at least 10^15 count as none. *)
Theorem path_matrix_correct :
  forall e,
  keys_unique e -> ids_dense e -> costs_ok 1000000000000000 e ->
  exists g' sp, getPaths (mkGraph e [] [] []) = Ok (g', sp) /\
    length sp = numNodes e /\
    forall i j, i < numNodes e -> j < numNodes e ->
    exists row p, nth_error sp i = Some row /\ nth_error row j = Some p /\
      (exists g1, shortestPath (mkGraph e [] [] []) i j 1000000000000000 = Ok (g1, p)) /\
      (p = [] <-> i = j \/ forall c', walk (edge_in e) i j c' -> (1000000000000000 <= c')%Z) /\
      (p <> [] -> simple_path (edge_in e) i j p).
Proof.
  intros e Hk Hd Hc.
  destruct (fresh_answers e INF_default Hk Hd Hc) as (dist & next & E & HG & HA).
  pose proof (shortest_shape _ _ _ _ E) as [_ Hl].
  destruct (all_paths_ok (length e) next
    (fun i j => match reconstructPath next i j with Ok p => p | _ => [] end) Hl) as (sp & Esp & Rsp).
  { intros i j Hi Hj.
    destruct (path_query e INF_default Hc dist next HG i j Hi Hj) as (p & c & -> & _). auto. }
  exists (mkGraph e sp dist next), sp. split; [|split].
  - unfold getPaths. simpl. unfold g_fill. simpl. rewrite E. simpl. unfold numNodes. rewrite Esp. auto.
  - apply Rsp.
  - unfold numNodes. intros i j Hi Hj.
    destruct (shortest_path_correct e INF_default i j Hk Hd Hc Hi Hj) as (g1 & g2 & p & c & P1 & P2 & P3 & P4).
    destruct Rsp as [_ R]. destruct (R i Hi) as (row & R1 & R2 & R3).
    exists row, p. split; auto. split; [|split; [eauto|split; auto]].
    + rewrite (R3 j Hj). destruct (HA i j Hi Hj) as [_ H]. unfold fresh, answer in H.
      rewrite P1 in H. cbn [bind snd] in H. rewrite <- H. auto.
    + intro Hp. apply P4; auto.
Qed.
Print Assumptions path_matrix_correct.

Example path_matrix_correct_ex :
  keys_unique ex_edges /\ ids_dense ex_edges /\ costs_ok INF_default ex_edges /\
  match answer (getPaths (mkGraph ex_edges [] [] [])) with
  | Ok sp => nth 3 (nth 2 sp []) [] = [2; 3] /\ nth 4 (nth 2 sp []) [] = [2; 3; 0; 1; 4]
  | _ => False
  end.
Proof.
  destruct ex_ok as (A & B & [C1 C2]). split; [exact A|]. split; [exact B|]. split.
  - split; [unfold INF_default; lia|]. intros i j c H. apply C2 in H. unfold INF_default. lia.
  - vm_compute. split; reflexivity.
Qed.

(** C17, refuted: after removing the only edge the old path is still reported. *)
Theorem history_removal_refuted :
  exists h g, run_ops h = Ok g /\
    (forall i j c, ~ edge_in (g_edges g) i j c) /\
    answer (shortestPathCost g 0 1 INF_default) = Ok 5%Z /\
    answer (shortestPath g 0 1 INF_default) = Ok [0; 1] /\
    answer (shortestPathCost (mkGraph (g_edges g) [] [] []) 0 1 INF_default) = Ok INF_default.
Proof.
  exists [OAdd 0 1 5; OCost 0 1 INF_default; ORemove 0 1].
  eexists. split; [vm_compute; reflexivity|]. split; [|repeat split; vm_compute; reflexivity].
  intros i j c (m & H1 & H2). simpl in H1. in_cases.
Qed.
Print Assumptions history_removal_refuted.

(** The edge (i, j) and its cost after a history, read off the history. *)
Definition hist_edge (h : list gop) (i j : nat) (c : Z) : Prop :=
  fold_left (fun old o => op_cost i j o old) h None = Some c.

Lemma hist_edge_iff h g i j c : run_ops h = Ok g -> (hist_edge h i j c <-> edge_in (g_edges g) i j c).
Proof.
  intro H. unfold hist_edge. rewrite <- (hist_look h g i j H).
  apply look_edge_in. eapply hist_unique; eauto.
Qed.

Lemma walk_iff (E E' : nat -> nat -> Z -> Prop) i j c :
  (forall i j c, E i j c <-> E' i j c) -> walk E i j c -> walk E' i j c.
Proof. intros H. induction 1; [constructor|]. econstructor; eauto. apply H. auto. Qed.

(** C18: after any history of insertions and queries the answers are those of a
    fresh graph with the same edges; the INF in force is the one of this query or
    of an earlier one. *)
Theorem history_answers_fresh :
  forall h g i j INF,
  forallb (fun o => negb (op_is_remove o)) h = true -> run_ops h = Ok g ->
  (exists I0, In I0 (INF :: hist_infs h) /\
    answer (shortestPathCost g i j INF) =
    answer (shortestPathCost (mkGraph (g_edges g) [] [] []) i j I0)) /\
  (exists I0, In I0 (INF :: hist_infs h) /\
    answer (shortestPath g i j INF) =
    answer (shortestPath (mkGraph (g_edges g) [] [] []) i j I0)) /\
  (exists I0, In I0 (INF_default :: hist_infs h) /\
    answer (getCosts g) = do r <- shortestPathsAndCosts (g_edges g) I0; Ok (fst r)) /\
  (exists I0, In I0 (INF_default :: hist_infs h) /\
    answer (getPaths g) = do r <- shortestPathsAndCosts (g_edges g) I0;
                          all_shortest_paths (numNodes (g_edges g)) (snd r)).
Proof.
  intros h g i j INF Hr E.
  assert (H : forall I, cache_ok (fun x => In x (I :: hist_infs h)) g).
  { intro I. apply (cache_hist _ h); auto. intros x Hx. right. auto. }
  split; [|split; [|split]].
  - apply (answer_cost (fun x => In x (INF :: hist_infs h))); auto. left; auto.
  - apply (answer_path (fun x => In x (INF :: hist_infs h))); auto. left; auto.
  - apply (answer_costs (fun x => In x (INF_default :: hist_infs h))); auto. left; auto.
  - apply (answer_paths (fun x => In x (INF_default :: hist_infs h))); auto. left; auto.
Qed.
Print Assumptions history_answers_fresh.

Example history_answers_fresh_ex :
  forallb (fun o => negb (op_is_remove o)) (OAdd 7 8 1 :: ex_hist) = true /\
  (exists g, run_ops [OAdd 0 1 5; OPaths; OCosts; OAdd 1 2 5; ORecompute 50; OAdd 0 2 1; OPath 1 2 99] = Ok g /\
     answer (shortestPathCost g 1 2 7) = Ok 5%Z /\ answer (shortestPathCost g 0 2 7) = Ok 1%Z).
Proof. split; [reflexivity|]. eexists. split; [vm_compute; reflexivity|]. split; vm_compute; reflexivity. Qed.

(** C15/C16/C18 together, in terms of the history alone: any history of
    insertions and queries whose INF values are all the same. *)
Theorem history_cost_correct :
  forall h g i j INF,
  forallb (fun o => negb (op_is_remove o)) h = true -> run_ops h = Ok g ->
  (forall I, In I (hist_infs h) -> I = INF) ->
  ids_dense (g_edges g) -> costs_ok INF (g_edges g) ->
  i < numNodes (g_edges g) -> j < numNodes (g_edges g) ->
  exists g1 g2 p c,
    shortestPathCost g i j INF = Ok (g1, c) /\ shortestPath g i j INF = Ok (g2, p) /\
    is_shortest (hist_edge h) INF i j c /\
    (p <> [] -> simple_path (hist_edge h) i j p).
Proof.
  intros h g i j INF Hr E HI Hd Hc Hi Hj.
  pose proof (hist_unique h g E) as Hk.
  destruct (history_answers_fresh h g i j INF Hr E) as ((I1 & HI1 & A1) & (I2 & HI2 & A2) & _).
  assert (I1 = INF) by (destruct HI1; auto). assert (I2 = INF) by (destruct HI2; auto). subst I1 I2.
  destruct (shortest_cost_minimal (g_edges g) INF i j Hk Hd Hc Hi Hj) as (g1 & c & B1 & B2 & _).
  destruct (shortest_path_correct (g_edges g) INF i j Hk Hd Hc Hi Hj) as (g2 & g3 & p & c' & C1 & C2 & C3 & C4).
  rewrite B1 in A1. rewrite C1 in A2. unfold answer in A1, A2. cbn [bind snd] in A1, A2.
  destruct (shortestPathCost g i j INF) as [[g1' c1]| | |]; try discriminate.
  destruct (shortestPath g i j INF) as [[g2' p1]| | |]; try discriminate.
  cbn [bind snd] in A1, A2. assert (c1 = c) by congruence. assert (p1 = p) by congruence. subst c1 p1.
  assert (HE : forall i j c, edge_in (g_edges g) i j c <-> hist_edge h i j c)
    by (intros; symmetry; apply hist_edge_iff; auto).
  exists g1', g2', p, c. split; auto. split; auto. split.
  - destruct B2 as [B2 B3]. split.
    + destruct B2 as [[B2 B4]|]; auto. left. split; auto. eapply walk_iff; eauto.
    + intros c0 Hw. apply B3. eapply walk_iff; [|exact Hw]. intros; symmetry; apply HE.
  - intro Hp. destruct (C4 Hp) as [(D1 & D2 & D3 & (c0 & D4)) _].
    repeat split; auto. exists c0. clear - D4 HE. induction D4; constructor; auto. apply HE; auto.
Qed.
Print Assumptions history_cost_correct.

Example history_cost_correct_ex :
  let h := [OAdd 0 1 5; OCost 0 1 99; OAdd 1 2 5; OPath 0 2 99; OAdd 0 2 1] in
  forallb (fun o => negb (op_is_remove o)) h = true /\
  (forall I, In I (hist_infs h) -> I = 99%Z) /\
  exists g, run_ops h = Ok g /\ ids_dense (g_edges g) /\ costs_ok 99 (g_edges g).
Proof.
  split; [auto|]. split; [simpl; intuition|]. eexists. split; [vm_compute; reflexivity|]. cbn [g_edges].
  split; split; unfold edge_in; intros; in_cases; simpl; lia.
Qed.

(** C19, refuted: a node without outgoing edge, and sparse node ids. *)
Theorem path_query_safe_refuted :
  (exists h g, run_ops h = Ok g /\ shortestPath g 0 1 INF_default = UB /\
     getPaths g = UB /\ getCosts g = UB) /\
  (exists h g, run_ops h = Ok g /\ shortestPath g 1 2 INF_default = UB /\
     allPathsBetween (map fst) (g_edges g) 1 2 = UB).
Proof.
  split.
  - exists [OAddDirected 0 1 5]. eexists. split; [reflexivity|]. repeat split; vm_compute; reflexivity.
  - exists [OAdd 1 2 5]. eexists. split; [reflexivity|]. repeat split; vm_compute; reflexivity.
Qed.
Print Assumptions path_query_safe_refuted.

(** C86: the exact condition. *)
Theorem path_query_safe_iff :
  forall e INF, keys_unique e -> costs_ok INF e ->
  (ids_dense e <-> exists dist next, shortestPathsAndCosts e INF = Ok (dist, next)) /\
  (~ ids_dense e <-> shortestPathsAndCosts e INF = UB).
Proof.
  intros e INF Hk Hc.
  assert (H1 : ids_dense e -> exists dist next, shortestPathsAndCosts e INF = Ok (dist, next)).
  { intro Hd. destruct (shortest_ok e INF Hk Hd Hc) as (dist & next & H & _). eauto. }
  assert (H2 : ~ ids_dense e -> shortestPathsAndCosts e INF = UB) by apply shortest_bad.
  assert (H3 : ids_dense e \/ ~ ids_dense e).
  { destruct (shortestPathsAndCosts e INF) as [[d n]| | |] eqn:E.
    all: destruct (forallb (fun p => (fst p <? length e) && forallb (fun q => fst q <? length e) (snd p)) e) eqn:F.
    all: rewrite ?forallb_forall in F.
    all: try (left; split;
      [intros i m Hi; apply F in Hi; apply andb_true_iff in Hi; destruct Hi as [Hi _]; apply Nat.ltb_lt; exact Hi
      |intros i j c (m & Hm & Hj); apply F in Hm; apply andb_true_iff in Hm; destruct Hm as [_ Hm];
       cbn [snd] in Hm; rewrite forallb_forall in Hm; apply Hm in Hj; apply Nat.ltb_lt; exact Hj]).
    all: right; intros [D1 D2];
      match type of F with ?b = false => assert (b = true); [|congruence] end;
      apply forallb_forall; intros [i m] Him; apply andb_true_iff; cbn [fst snd]; split;
      [apply Nat.ltb_lt; eapply D1; eauto|];
      apply forallb_forall; intros [j c] Hj; apply Nat.ltb_lt; eapply D2; exists m; eauto. }
  split; split; auto.
  - intros (d & n & E). destruct H3 as [|H3]; auto. rewrite H2 in E by auto. discriminate.
  - intros E Hd. destruct (H1 Hd) as (d & n & E'). congruence.
Qed.
Print Assumptions path_query_safe_iff.

Example path_query_safe_iff_ex :
  keys_unique ex_edges /\ costs_ok 1000 ex_edges /\ ids_dense ex_edges.
Proof. destruct ex_ok as (A & B & C). auto. Qed.

(** C20 *)
Theorem all_simple_paths :
  forall (enum : list (nat * Z) -> list nat),
  (forall m, Permutation (enum m) (map fst m)) ->
  forall e from to,
  keys_unique e -> (forall i j c, edge_in e i j c -> j < numNodes e) -> from < numNodes e ->
  exists res, allPathsBetween enum e from to = Ok res /\ NoDup res /\
    forall p, In p res <-> simple_path (edge_in e) from to p.
Proof. intros enum He e from to Hk Hd Hf. apply allPaths_ok; auto. Qed.
Print Assumptions all_simple_paths.

Example all_simple_paths_ex :
  (forall m : list (nat * Z), Permutation (rev (map fst m)) (map fst m)) /\
  keys_unique ex_edges /\ ids_dense ex_edges /\
  allPathsBetween (fun m => rev (map fst m)) ex_edges 3 1 = Ok [[3; 0; 2; 1]; [3; 0; 1]] /\
  allPathsBetween (fun m => rev (map fst m)) ex_edges 4 4 = Ok [[4]].
Proof.
  destruct ex_ok as (A & B & C). split; [intro; apply Permutation_sym, Permutation_rev|].
  split; [exact A|]. split; [exact B|]. vm_compute. auto.
Qed.

(** C23: edge costs after any history of insertions, removals and queries. *)
Theorem history_edges_exact :
  forall h g i j INF, run_ops h = Ok g ->
  getCostFromEdge (g_edges g) i j INF =
    match fold_left (fun old o => op_cost i j o old) h None with Some c => c | None => INF end.
Proof.
  intros h g i j INF H. rewrite getCost_look, (hist_look h g i j H). auto.
Qed.
Print Assumptions history_edges_exact.

Example history_edges_exact_ex :
  exists g, run_ops [OAdd 0 1 5; OAddDirected 1 2 3; ORemoveDirected 0 1; OAdd 2 1 9; ORemove 5 6] = Ok g /\
    getCostFromEdge (g_edges g) 0 1 77 = 77%Z /\ getCostFromEdge (g_edges g) 1 0 77 = 5%Z /\
    getCostFromEdge (g_edges g) 1 2 77 = 9%Z.
Proof. eexists. split; [vm_compute; reflexivity|]. repeat split. Qed.

(** C23: one removal, spelled out. *)
Theorem remove_exact :
  forall g a b, keys_unique (g_edges g) ->
  let g1 := removeDirectedEdge g a b in
  let g2 := removeEdge g a b in
  (forall i j INF, (i, j) <> (a, b) ->
     getCostFromEdge (g_edges g1) i j INF = getCostFromEdge (g_edges g) i j INF) /\
  (forall INF, getCostFromEdge (g_edges g1) a b INF = INF) /\
  (forall i j INF, (i, j) <> (a, b) -> (i, j) <> (b, a) ->
     getCostFromEdge (g_edges g2) i j INF = getCostFromEdge (g_edges g) i j INF) /\
  (forall INF, getCostFromEdge (g_edges g2) a b INF = INF /\ getCostFromEdge (g_edges g2) b a INF = INF) /\
  numNodes (g_edges g1) = numNodes (g_edges g) /\ numNodes (g_edges g2) = numNodes (g_edges g) /\
  (forall c, edge_in (g_edges g) a b c -> S (numEdges (g_edges g1)) = numEdges (g_edges g)) /\
  ((forall c, ~ edge_in (g_edges g) a b c) -> g1 = g) /\
  removeDirectedEdge g1 a b = g1 /\ removeEdge g2 a b = g2.
Proof.
  intros g a b Hk g1 g2.
  assert (Hk1 : keys_unique (edges_remove (g_edges g) a b)) by (apply keys_unique_remove; auto).
  assert (L1 : forall i j, look (g_edges g1) i j = if (a =? i) && (b =? j) then None else look (g_edges g) i j).
  { intros. apply look_remove; auto. }
  assert (L2 : forall i j, look (g_edges g2) i j =
     if (b =? i) && (a =? j) then None else if (a =? i) && (b =? j) then None else look (g_edges g) i j).
  { intros. unfold g2, removeEdge, removeDirectedEdge. cbn [g_edges]. rewrite !look_remove by auto. auto. }
  assert (Hid : forall e a b, look e a b = None -> edges_remove e a b = e).
  { intros e x y H. unfold look, edges_remove in *. destruct (am_find x e); auto. rewrite H. auto. }
  repeat split; intros; rewrite ?getCost_look, ?L1, ?L2.
  - destruct (Nat.eqb_spec a i), (Nat.eqb_spec b j); simpl; subst; auto. congruence.
  - rewrite !Nat.eqb_refl. auto.
  - destruct (Nat.eqb_spec a i), (Nat.eqb_spec b j), (Nat.eqb_spec b i), (Nat.eqb_spec a j); simpl; subst; auto; congruence.
  - rewrite !Nat.eqb_refl. simpl. destruct (_ && _); auto.
  - rewrite !Nat.eqb_refl. auto.
  - apply numNodes_remove.
  - unfold g2, removeEdge, removeDirectedEdge. cbn [g_edges]. rewrite !numNodes_remove. auto.
  - unfold g1, removeDirectedEdge. cbn [g_edges]. pose proof (numEdges_remove _ a b Hk) as Hn.
    apply look_edge_in in H; auto. rewrite H in Hn. unfold look in H.
    destruct (am_find a (g_edges g)) as [m|] eqn:Ea; [|discriminate].
    assert (0 < numEdges (g_edges g)); [|lia]. rewrite numEdges_total.
    apply am_find_In in Ea; [|apply Hk]. apply in_split in Ea. destruct Ea as (l1 & l2 & ->).
    unfold total. rewrite map_app, list_sum_app. simpl. destruct m; [discriminate|simpl; lia].
  - unfold g1, removeDirectedEdge. rewrite Hid; [destruct g; auto|].
    destruct (look (g_edges g) a b) eqn:El; auto. apply look_edge_in in El; auto. apply H in El. contradiction.
  - unfold g1, removeDirectedEdge. cbn [g_edges g_paths g_dist g_next]. f_equal.
    apply Hid. change (look (g_edges g1) a b = None). rewrite L1, !Nat.eqb_refl. auto.
  - unfold removeEdge at 1. unfold removeDirectedEdge. cbn [g_edges g_paths g_dist g_next].
    rewrite (Hid (g_edges g2) a b), (Hid (g_edges g2) b a).
    + unfold g2, removeEdge, removeDirectedEdge. auto.
    + rewrite L2, !Nat.eqb_refl. auto.
    + rewrite L2, !Nat.eqb_refl. simpl. destruct (_ && _); auto.
Qed.
Print Assumptions remove_exact.

Example remove_exact_ex : keys_unique (g_edges (mkGraph ex_edges [] [] [])) /\
  numEdges (g_edges (removeEdge (mkGraph ex_edges [] [] []) 2 1)) = 9.
Proof. split; [apply ex_ok|auto]. Qed.

(** C23: one insertion, spelled out. *)
Theorem add_exact :
  forall g a b c, keys_unique (g_edges g) ->
  let g1 := addDirectedEdge g a b c in
  (forall i j INF, getCostFromEdge (g_edges g1) i j INF =
     if (i =? a) && (j =? b) then c else getCostFromEdge (g_edges g) i j INF) /\
  keys_unique (g_edges g1) /\
  (forall c, edge_in (g_edges g) a b c -> numEdges (g_edges g1) = numEdges (g_edges g)) /\
  ((forall c, ~ edge_in (g_edges g) a b c) -> numEdges (g_edges g1) = S (numEdges (g_edges g))).
Proof.
  intros g a b c Hk g1. unfold g1. rewrite addDirectedEdge_edges. split; [|split].
  - intros. rewrite !getCost_look, look_add, (Nat.eqb_sym a), (Nat.eqb_sym b). destruct (_ && _); auto.
  - apply keys_unique_add; auto.
  - rewrite numEdges_add by auto. split.
    + intros c0 H. apply look_edge_in in H; auto. rewrite H. auto.
    + intro H. destruct (look (g_edges g) a b) eqn:El; auto.
      apply look_edge_in in El; auto. apply H in El. contradiction.
Qed.
Print Assumptions add_exact.

Example add_exact_ex : keys_unique (g_edges (mkGraph ex_edges [] [] [])) /\
  numEdges (g_edges (addDirectedEdge (mkGraph ex_edges [] [] []) 2 1 7)) = 11 /\
  numEdges (g_edges (addDirectedEdge (mkGraph ex_edges [] [] []) 3 1 7)) = 12.
Proof. split; [apply ex_ok|auto]. Qed.
