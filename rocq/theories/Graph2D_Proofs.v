(** Proofs about graphs over points. *)
From Coq Require Import List Arith ZArith Lia Bool Permutation.
From Verif Require Import Outcome ListAux Graph_Model Graph_Spec Graph_Proofs Graph_Proofs2
  Graph_Proofs3 Graph_Proofs4 Graph_Props Graph2D_Model Graph2D_Spec.
Import ListNotations.

Section Proofs.
  Context {P : Type}.
  Variable keq : P -> P -> bool.
  Variable dist_cost : P -> P -> Z.
  Hypothesis Heq : equivalence keq.

  Let krefl := proj1 Heq.
  Let ksym := proj1 (proj2 Heq).
  Let ktrans := proj2 (proj2 Heq).

  Fixpoint pidx (p : P) (pts : list P) : option nat :=
    match pts with
    | [] => None
    | q :: t => if keq q p then Some 0 else option_map S (pidx p t)
    end.

  Fixpoint distinct (pts : list P) : Prop :=
    match pts with
    | [] => True
    | q :: t => (forall p, In p t -> keq q p = false) /\ distinct t
    end.

  Lemma pidx_Some p pts k : pidx p pts = Some k -> exists q, nth_error pts k = Some q /\ keq q p = true.
  Proof.
    revert k. induction pts as [|q t IH]; simpl; intros k H; [discriminate|].
    destruct (keq q p) eqn:E.
    - assert (k = 0) by congruence. subst. simpl. eauto.
    - destruct (pidx p t); [|discriminate]. simpl in H. assert (k = S n) by congruence. subst. simpl. eauto.
  Qed.

  Lemma pidx_None p pts : pidx p pts = None <-> forall q, In q pts -> keq q p = false.
  Proof.
    induction pts as [|q t IH]; simpl.
    - split; auto. intros _ q [].
    - destruct (keq q p) eqn:E.
      + split; [discriminate|]. intro H. rewrite (H q) in E by auto. discriminate.
      + destruct (pidx p t) eqn:Ep; simpl.
        * split; [discriminate|]. intro H.
          assert (Some n = None) by (apply IH; auto). discriminate.
        * split; auto. intros _ x [<-|Hx]; auto. apply IH; auto.
  Qed.

  Lemma pidx_at pts k q p : distinct pts -> nth_error pts k = Some q -> keq q p = true -> pidx p pts = Some k.
  Proof.
    revert k. induction pts as [|x t IH]; intros k Hd Hk Hq; [destruct k; discriminate|].
    simpl in Hd. destruct Hd as [Hx Hd]. destruct k as [|k]; simpl in Hk.
    - assert (x = q) by congruence. subst. simpl. rewrite Hq. auto.
    - simpl. destruct (keq x p) eqn:E.
      + exfalso. assert (Hin : In q t) by (eapply nth_error_In; eauto).
        specialize (Hx q Hin). assert (keq x q = true); [|congruence].
        apply (ktrans x p q); auto. rewrite ksym. auto.
      + rewrite (IH k Hd Hk Hq). auto.
  Qed.

  (** Comparing with a node decides the index. *)
  Lemma pidx_keq pts a k i p : distinct pts -> pidx a pts = Some k -> nth_error pts i = Some p ->
    keq a p = (k =? i).
  Proof.
    intros Hd Ha Hi. destruct (keq a p) eqn:E.
    - assert (pidx a pts = Some i).
      { apply (pidx_at pts i p a Hd Hi). rewrite ksym. exact E. }
      assert (k = i) by congruence. subst. symmetry. apply Nat.eqb_refl.
    - symmetry. apply Nat.eqb_neq. intros ->. apply pidx_Some in Ha. destruct Ha as (q & Hq & Hk).
      assert (q = p) by congruence. subst. rewrite ksym in Hk. congruence.
  Qed.

  Lemma n2i_find_combine p : forall pts s,
    n2i_find keq p (combine pts (seq s (length pts))) = option_map (fun k => s + k) (pidx p pts).
  Proof.
    induction pts as [|q t IH]; intro s; simpl; auto.
    destruct (keq q p); simpl; [f_equal; lia|].
    rewrite IH. destruct (pidx p t); simpl; auto.
  Qed.

  Lemma am_find_combine k : forall (pts : list P) s,
    am_find k (combine (seq s (length pts)) pts) = if k <? s then None else nth_error pts (k - s).
  Proof.
    induction pts as [|q t IH]; intro s; simpl.
    - destruct (k <? s); auto. destruct (k - s); auto.
    - destruct (Nat.eqb_spec s k) as [->|].
      + rewrite Nat.ltb_irrefl, Nat.sub_diag. auto.
      + rewrite IH. destruct (Nat.ltb_spec k (S s)), (Nat.ltb_spec k s); try lia; auto.
        replace (k - s) with (S (k - S s)) by lia. auto.
  Qed.

  Definition ins (pts : list P) (p : P) : list P :=
    match pidx p pts with Some _ => pts | None => pts ++ [p] end.
  Definition idx (pts : list P) (p : P) : nat :=
    match pidx p pts with Some k => k | None => length pts end.

  Lemma combine_snoc {A B} (l : list A) (l' : list B) a b : length l = length l' ->
    combine (l ++ [a]) (l' ++ [b]) = combine l l' ++ [(a, b)].
  Proof.
    revert l'. induction l as [|x l IH]; intros [|y l'] H; try discriminate; simpl; auto.
    rewrite IH; auto.
  Qed.

  Lemma seq_snoc s n : seq s (S n) = seq s n ++ [s + n].
  Proof. apply seq_S. Qed.

  Definition N2I (pts : list P) := combine pts (seq 0 (length pts)).
  Definition I2N (pts : list P) := combine (seq 0 (length pts)) pts.

  Lemma n2i_insert_ok pts p : n2i_insert keq p (N2I pts) = (N2I (ins pts p), idx pts p).
  Proof.
    unfold n2i_insert, N2I, ins, idx. rewrite n2i_find_combine.
    destruct (pidx p pts) eqn:E; simpl; auto.
    rewrite combine_length, seq_length, Nat.min_id, app_length. simpl length.
    replace (length pts + 1) with (S (length pts)) by lia. rewrite seq_snoc, combine_snoc by (rewrite seq_length; auto).
    auto.
  Qed.

  Lemma i2n_insert_ok pts p : i2n_insert (idx pts p) p (I2N pts) = I2N (ins pts p).
  Proof.
    unfold i2n_insert, I2N, ins, idx. rewrite am_find_combine. simpl Nat.ltb. rewrite Nat.sub_0_r.
    destruct (pidx p pts) eqn:E.
    - apply pidx_Some in E. destruct E as (q & -> & _). auto.
    - destruct (nth_error pts (length pts)) eqn:En.
      { assert (length pts < length pts) by (apply nth_error_Some; congruence). lia. }
      rewrite app_length. simpl length.
      replace (length pts + 1) with (S (length pts)) by lia. rewrite seq_snoc, combine_snoc by (rewrite seq_length; auto).
      auto.
  Qed.

  Lemma ins_distinct pts p : distinct pts -> distinct (ins pts p).
  Proof.
    unfold ins. destruct (pidx p pts) eqn:E; auto. rewrite pidx_None in E.
    induction pts as [|q t IH]; simpl; intro H.
    - split; auto. intros x [].
    - destruct H as [H1 H2]. split.
      + intros x Hx. apply in_app_or in Hx. destruct Hx as [Hx|[<-|[]]]; auto. apply E. left; auto.
      + apply IH; auto. intros x Hx. apply E. right; auto.
  Qed.

  Lemma ins_prefix pts p : exists t, ins pts p = pts ++ t.
  Proof. unfold ins. destruct (pidx p pts); [exists []; rewrite app_nil_r|exists [p]]; auto. Qed.

  Lemma pidx_ins pts p : pidx p (ins pts p) = Some (idx pts p).
  Proof.
    unfold ins, idx. destruct (pidx p pts) eqn:E; auto.
    induction pts as [|q t IH]; simpl in *.
    - rewrite krefl. auto.
    - destruct (keq q p); [discriminate|]. destruct (pidx p t); [discriminate|]. rewrite IH; auto.
  Qed.

  Lemma pidx_prefix pts t p k : pidx p pts = Some k -> pidx p (pts ++ t) = Some k.
  Proof.
    revert k. induction pts as [|q l IH]; simpl; intros k H; [discriminate|].
    destruct (keq q p); auto. destruct (pidx p l); [|discriminate]. rewrite (IH n); auto.
  Qed.

  Lemma idx_ins pts p q : idx (ins pts p) q = idx pts q \/ pidx q pts = None.
  Proof.
    unfold idx. destruct (pidx q pts) eqn:E; auto. left.
    destruct (ins_prefix pts p) as [t ->]. rewrite (pidx_prefix _ _ _ _ E). auto.
  Qed.

  Lemma in_ins pts p x : In x (ins pts p) -> In x pts \/ x = p.
  Proof.
    unfold ins. destruct (pidx p pts); auto. intro H. apply in_app_or in H.
    destruct H as [|[<-|[]]]; auto.
  Qed.

  (** ** Index-level reading of a history *)

  Definition rep2 (pts : list P) (g : graph2d P) : Prop :=
    g2_n2i g = N2I pts /\ g2_i2n g = I2N pts /\ distinct pts.

  Lemma nodeToIndex_rep pts g p : rep2 pts g ->
    g2_nodeToIndex keq g p = match pidx p pts with Some k => Ok k | None => Throw OutOfRange end.
  Proof.
    intros (H1 & _ & _). unfold g2_nodeToIndex. rewrite H1. unfold N2I. rewrite n2i_find_combine.
    destruct (pidx p pts); auto.
  Qed.

  Lemma indexToNode_rep pts g k : rep2 pts g ->
    g2_indexToNode g k = match nth_error pts k with Some p => Ok p | None => Throw OutOfRange end.
  Proof.
    intros (_ & H1 & _). unfold g2_indexToNode. rewrite H1. unfold I2N. rewrite am_find_combine.
    simpl Nat.ltb. rewrite Nat.sub_0_r. auto.
  Qed.

  Definition addpts (pts : list P) (a b : P) := ins (ins pts a) b.

  Lemma addDirected_rep pts g a b c : rep2 pts g ->
    rep2 (addpts pts a b) (g2_addDirectedEdge keq g a b c) /\
    g2_graph (g2_addDirectedEdge keq g a b c) =
      addDirectedEdge (g2_graph g) (idx pts a) (idx (ins pts a) b) c.
  Proof.
    intros (H1 & H2 & H3). unfold g2_addDirectedEdge. rewrite H1, H2, n2i_insert_ok, n2i_insert_ok.
    simpl. rewrite !i2n_insert_ok. unfold addpts. repeat split; simpl; auto using ins_distinct.
  Qed.

  Lemma pidx_addpts pts a b : 
    pidx a (addpts pts a b) = Some (idx pts a) /\
    pidx b (addpts pts a b) = Some (idx (ins pts a) b).
  Proof.
    split.
    - unfold addpts. destruct (ins_prefix (ins pts a) b) as [t ->]. apply pidx_prefix, pidx_ins.
    - apply pidx_ins.
  Qed.

  Lemma addpts_again pts a b : addpts (addpts pts a b) b a = addpts pts a b /\
    idx (addpts pts a b) b = idx (ins pts a) b /\ idx (ins (addpts pts a b) b) a = idx pts a.
  Proof.
    destruct (pidx_addpts pts a b) as [Ha Hb].
    assert (E : ins (addpts pts a b) b = addpts pts a b) by (unfold ins at 1; rewrite Hb; auto).
    unfold addpts at 1. rewrite E. split; [|split].
    - unfold ins at 1. rewrite Ha. auto.
    - unfold idx. rewrite Hb. auto.
    - unfold idx. rewrite Ha. auto.
  Qed.

  Lemma addpts_prefix pts a b : exists t, addpts pts a b = pts ++ t.
  Proof.
    unfold addpts. destruct (ins_prefix pts a) as [t1 E1]. destruct (ins_prefix (ins pts a) b) as [t2 ->].
    rewrite E1, <- app_assoc. eauto.
  Qed.

  (** Link between a point history and an index history. *)
  Definition linked (h : list (g2op P)) (pts : list P) (g : graph2d P) (h' : list gop) : Prop :=
    rep2 pts g /\ run_ops h' = Ok (g2_graph g) /\
    (forall i j p q, nth_error pts i = Some p -> nth_error pts j = Some q ->
       look (g_edges (g2_graph g)) i j = g2_edge keq dist_cost h p q) /\
    (forall i j, length pts <= i \/ length pts <= j -> look (g_edges (g2_graph g)) i j = None) /\
    (forall p, (exists k, pidx p pts = Some k) <-> exists q, In q (inserted h) /\ keq q p = true) /\
    hist_infs h' = g2_infs h /\
    (forallb two_way h = true -> forall k, k < length pts -> am_find k (g_edges (g2_graph g)) <> None) /\
    (forall i m, In (i, m) (g_edges (g2_graph g)) -> i < length pts).

  Lemma run_ops_snoc h' g o g' : run_ops h' = Ok g -> run_op g o = Ok g' -> run_ops (h' ++ [o]) = Ok g'.
  Proof.
    unfold run_ops. intros H1 H2. rewrite foldM_app, H1. simpl. rewrite H2. auto.
  Qed.

  Lemma nth_prefix {A} (l t : list A) k x : nth_error l k = Some x -> nth_error (l ++ t) k = Some x.
  Proof. intro H. rewrite nth_error_app1; auto. apply nth_error_Some. congruence. Qed.

  Lemma nth_prefix_inv {A} (l t : list A) k x : nth_error (l ++ t) k = Some x ->
    nth_error l k = Some x \/ length l <= k.
  Proof.
    intro H. destruct (lt_dec k (length l)); [left|right; lia]. rewrite nth_error_app1 in H; auto.
  Qed.

  (** No edge is recorded for a point that was never inserted. *)
  Lemma g2_edge_fresh h p q : (forall x, In x (inserted h) -> keq x p = false) \/
    (forall x, In x (inserted h) -> keq x q = false) -> g2_edge keq dist_cost h p q = None.
  Proof.
    unfold g2_edge. intro H.
    assert (G : forall l old, incl l h -> old = None ->
      fold_left (fun old o => g2op_cost keq dist_cost p q o old) l old = None).
    { induction l as [|o l IH]; intros old Hl Ho; simpl; auto.
      apply IH; [intros x Hx; apply Hl; right; auto|].
      assert (Hin : forall x, In x (op_points o) -> In x (inserted h)).
      { intros x Hx. apply in_flat_map. exists o. split; auto. apply Hl. left; auto. }
      assert (Hf : forall a b, In a (op_points o) -> In b (op_points o) -> keq a p && keq b q = false).
      { intros a b Ha Hb. destruct H as [H|H].
        - rewrite (H a); auto.
        - rewrite (H b), andb_false_r; auto. }
      subst old. destruct o; simpl in *; rewrite ?Hf by auto; simpl; auto;
        match goal with |- (if ?b then _ else _) = _ => destruct b; auto end. }
    apply G; [apply incl_refl|auto].
  Qed.

  Lemma linked_empty : linked [] [] g2_empty [].
  Proof.
    split; [repeat split; auto|]. split; [reflexivity|].
    split; [intros [|] ? ? ? H; discriminate|]. split; [auto|].
    split; [|split; [auto|split; [simpl; intros; lia|simpl; tauto]]].
    intro p. split; [intros [k Hk]; discriminate|intros (q & [] & _)].
  Qed.

  (** Adding one directed edge, at both levels. *)
  Record add_post (pts pts' : list P) (g g' : graph2d P) (a b : P) (c : Z) : Prop := {
    ap_rep : rep2 pts' g';
    ap_pts : exists t, pts' = pts ++ t;
    ap_a : exists i, pidx a pts' = Some i;
    ap_b : exists j, pidx b pts' = Some j;
    ap_in : forall x, In x pts' -> In x pts \/ x = a \/ x = b
  }.

  Lemma idx_lt pts p k : pidx p pts = Some k -> k < length pts.
  Proof. intro H. apply pidx_Some in H. destruct H as (q & H & _). apply nth_error_Some. congruence. Qed.

  Lemma look_addDirected g i0 j0 c i j :
    look (g_edges (addDirectedEdge g i0 j0 c)) i j =
    if (i0 =? i) && (j0 =? j) then Some c else look (g_edges g) i j.
  Proof. rewrite addDirectedEdge_edges. apply look_add. Qed.

  Lemma linked_points pts g h h' : linked h pts g h' -> forall p, pidx p pts = None ->
    forall x, In x (inserted h) -> keq x p = false.
  Proof.
    intros (_ & _ & _ & _ & H & _) p Hp x Hx. destruct (keq x p) eqn:E; auto.
    assert (exists k, pidx p pts = Some k) as [k Hk] by (apply H; eauto). congruence.
  Qed.

  Lemma in_pidx pts x : distinct pts -> In x pts -> exists k, pidx x pts = Some k.
  Proof.
    intros Hd Hx. apply In_nth_error in Hx. destruct Hx as [k Hk]. exists k. eapply pidx_at; eauto.
  Qed.

  Lemma edges_look h pts g h' : linked h pts g h' ->
    forall t i j p q, nth_error (pts ++ t) i = Some p -> nth_error (pts ++ t) j = Some q ->
    distinct (pts ++ t) ->
    look (g_edges (g2_graph g)) i j = g2_edge keq dist_cost h p q.
  Proof.
    intros HL t i j p q Hi Hj Hd. destruct HL as (H1 & H2 & H3 & H4 & H5 & H6).
    destruct (nth_prefix_inv pts t i p Hi) as [Hi'|Hi'].
    - destruct (nth_prefix_inv pts t j q Hj) as [Hj'|Hj']; [auto|].
      rewrite H4 by auto. symmetry. apply g2_edge_fresh. right. intros x Hx.
      destruct (keq x q) eqn:E; auto. exfalso.
      assert (exists k, pidx q pts = Some k) as [k Hk] by (apply H5; eauto).
      pose proof (idx_lt _ _ _ Hk). apply (pidx_prefix pts t) in Hk.
      assert (pidx q (pts ++ t) = Some j) by (eapply pidx_at; eauto). assert (k = j) by congruence. lia.
    - rewrite H4 by auto. symmetry. apply g2_edge_fresh. left. intros x Hx.
      destruct (keq x p) eqn:E; auto. exfalso.
      assert (exists k, pidx p pts = Some k) as [k Hk] by (apply H5; eauto).
      pose proof (idx_lt _ _ _ Hk). apply (pidx_prefix pts t) in Hk.
      assert (pidx p (pts ++ t) = Some i) by (eapply pidx_at; eauto). assert (k = i) by congruence. lia.
  Qed.

  Lemma in_edges_find e i (m : list (nat * Z)) : keys_unique e -> In (i, m) e -> am_find i e <> None.
  Proof. intros [H _] Hin. apply (am_find_In i m e H) in Hin. congruence. Qed.

  Lemma find_edges_in e i : am_find i e <> None -> exists m : list (nat * Z), In (i, m) e.
  Proof.
    induction e as [|[k v] e IH]; simpl; [congruence|].
    destruct (Nat.eqb_spec k i) as [->|]; eauto. intro H. destruct (IH H) as [m Hm]. eauto.
  Qed.

  Lemma edges_add_find e a b c k : am_find k (edges_add e a b c) <> None <-> k = a \/ am_find k e <> None.
  Proof.
    unfold edges_add. rewrite am_find_set. destruct (Nat.eqb_spec a k) as [->|].
    - split; auto. discriminate.
    - split; auto. intros [|]; auto.
  Qed.

  Definition g2op_idx (pts : list P) (o : g2op P) : list gop :=
    let i := idx pts in
    match o with
    | G2AddDirected a b c => [OAddDirected (i a) (idx (ins pts a) b) c]
    | G2Add a b c => [OAdd (i a) (idx (ins pts a) b) c]
    | G2AddDirectedDist a b => [OAddDirected (i a) (idx (ins pts a) b) (dist_cost a b)]
    | G2AddDist a b => [OAdd (i a) (idx (ins pts a) b) (dist_cost a b)]
    | G2RemoveDirected a b => [ORemoveDirected (i a) (i b)]
    | G2Remove a b => [ORemove (i a) (i b)]
    | G2Path a b INF => [OPath (i a) (i b) INF]
    | G2Cost a b INF => [OCost (i a) (i b) INF]
    end.

  Definition g2op_pts (pts : list P) (o : g2op P) : list P :=
    match op_points o with [a; b] => addpts pts a b | _ => pts end.

  (** One call, at the level of representations. *)
  Lemma step_rep pts g o g' : rep2 pts g -> g2_run_op keq dist_cost g o = Ok g' ->
    rep2 (g2op_pts pts o) g' /\
    exists op, g2op_idx pts o = [op] /\ run_op (g2_graph g) op = Ok (g2_graph g').
  Proof.
    intros HR E. destruct o; simpl in E; cbn [g2op_pts op_points g2op_idx].
    - assert (g' = g2_addDirectedEdge keq g from to cost) by congruence. subst g'.
      destruct (addDirected_rep pts g from to cost HR) as [H1 H2]. split; auto.
      eexists. split; [reflexivity|]. simpl. rewrite H2. auto.
    - assert (g' = g2_addEdge keq g i j cost) by congruence. subst g'. unfold g2_addEdge.
      destruct (addDirected_rep pts g i j cost HR) as [H1 H2].
      destruct (addDirected_rep _ _ j i cost H1) as [H3 H4].
      destruct (addpts_again pts i j) as (E1 & E2 & E3). rewrite E1 in H3. rewrite E2, E3 in H4.
      split; auto. eexists. split; [reflexivity|]. simpl. rewrite H4, H2. auto.
    - assert (g' = g2_addDirectedEdge keq g from to (dist_cost from to)) by (unfold g2_addDirectedEdge_dist in E; congruence). subst g'.
      destruct (addDirected_rep pts g from to (dist_cost from to) HR) as [H1 H2]. split; auto.
      eexists. split; [reflexivity|]. simpl. rewrite H2. auto.
    - assert (g' = g2_addEdge keq g i j (dist_cost i j)) by (unfold g2_addEdge_dist in E; congruence). subst g'. unfold g2_addEdge.
      destruct (addDirected_rep pts g i j (dist_cost i j) HR) as [H1 H2].
      destruct (addDirected_rep _ _ j i (dist_cost i j) H1) as [H3 H4].
      destruct (addpts_again pts i j) as (E1 & E2 & E3). rewrite E1 in H3. rewrite E2, E3 in H4.
      split; auto. eexists. split; [reflexivity|]. simpl. rewrite H4, H2. auto.
    - unfold g2_removeDirectedEdge in E. rewrite !(nodeToIndex_rep pts g) in E by auto.
      unfold idx. destruct (pidx from pts), (pidx to pts); try discriminate. cbn [bind] in E.
      match type of E with Ok ?x = _ => assert (g' = x) by congruence end. subst g'.
      split; [exact HR|]. eexists. split; [reflexivity|]. auto.
    - unfold g2_removeEdge in E. bok E. unfold g2_removeDirectedEdge in E0.
      rewrite !(nodeToIndex_rep pts g) in E0 by auto. unfold idx.
      destruct (pidx i pts) as [ki|] eqn:Ei, (pidx j pts) as [kj|] eqn:Ej; try discriminate. cbn [bind] in E0.
      match type of E0 with Ok ?x = _ => assert (r = x) by congruence end. subst r.
      unfold g2_removeDirectedEdge in E.
      rewrite !(nodeToIndex_rep pts) in E by exact HR. rewrite Ei, Ej in E. cbn [bind] in E.
      match type of E with Ok ?x = _ => assert (g' = x) by congruence end. subst g'.
      split; [exact HR|]. eexists. split; [reflexivity|]. auto.
    - unfold g2_shortestPath in E. rewrite !(nodeToIndex_rep pts g) in E by auto. unfold idx.
      destruct (pidx from pts) as [ki|] eqn:Ei, (pidx to pts) as [kj|] eqn:Ej; try discriminate. cbn [bind] in E.
      bok E. bok E0. cbv zeta in E0. bok E0.
      match type of E0 with Ok ?x = _ => assert (r = x) by congruence end. subst r. simpl in E.
      match type of E with Ok ?x = _ => assert (g' = x) by congruence end. subst g'.
      split; [exact HR|]. eexists. split; [reflexivity|]. simpl. rewrite E1. auto.
    - unfold g2_shortestPathCost in E. rewrite !(nodeToIndex_rep pts g) in E by auto. unfold idx.
      destruct (pidx from pts) as [ki|] eqn:Ei, (pidx to pts) as [kj|] eqn:Ej; try discriminate. cbn [bind] in E.
      bok E. bok E0.
      match type of E0 with Ok ?x = _ => assert (r = x) by congruence end. subst r. simpl in E.
      match type of E with Ok ?x = _ => assert (g' = x) by congruence end. subst g'.
      split; [exact HR|]. eexists. split; [reflexivity|]. simpl. rewrite E1. auto.
  Qed.

  Lemma g2op_pts_prefix pts o : exists t, g2op_pts pts o = pts ++ t.
  Proof.
    unfold g2op_pts. destruct (op_points o) as [|a [|b [|]]];
      try (exists []; rewrite app_nil_r; reflexivity). apply addpts_prefix.
  Qed.

  Lemma idx_pidx pts p k : pidx p pts = Some k -> idx pts p = k.
  Proof. unfold idx. intros ->. auto. Qed.

  (** The index call has the effect of the point call on each edge. *)
  Lemma step_cost pts g o g' op : rep2 pts g -> g2_run_op keq dist_cost g o = Ok g' ->
    g2op_idx pts o = [op] -> forall i j p q old,
    nth_error (g2op_pts pts o) i = Some p -> nth_error (g2op_pts pts o) j = Some q ->
    op_cost i j op old = g2op_cost keq dist_cost p q o old.
  Proof.
    intros HR E Hop i j p q old Hi Hj.
    assert (HD : distinct (g2op_pts pts o)) by apply (step_rep _ _ _ _ HR E).
    destruct o; cbn [g2op_pts op_points g2op_idx] in *;
      match type of Hop with [?x] = [op] => assert (op = x) by congruence end; subst op; simpl; auto;
      try (destruct (pidx_addpts pts from to) as [Ha Hb]);
      try (match goal with |- context [keq ?a p && keq ?b q || _] => destruct (pidx_addpts pts a b) as [Ha Hb] end);
      try (rewrite ?(pidx_keq _ _ _ _ _ HD Ha Hi), ?(pidx_keq _ _ _ _ _ HD Ha Hj),
         ?(pidx_keq _ _ _ _ _ HD Hb Hi), ?(pidx_keq _ _ _ _ _ HD Hb Hj); auto; fail).
    - simpl in E. unfold g2_removeDirectedEdge in E. rewrite !(nodeToIndex_rep pts g) in E by auto.
      destruct (pidx from pts) as [ki|] eqn:Ei, (pidx to pts) as [kj|] eqn:Ej; try discriminate.
      rewrite (idx_pidx _ _ _ Ei), (idx_pidx _ _ _ Ej), (pidx_keq _ _ _ _ _ HD Ei Hi), (pidx_keq _ _ _ _ _ HD Ej Hj). auto.
    - simpl in E. unfold g2_removeEdge in E. bok E. unfold g2_removeDirectedEdge in E0. rewrite !(nodeToIndex_rep pts g) in E0 by auto.
      destruct (pidx i0 pts) as [ki|] eqn:Ei, (pidx j0 pts) as [kj|] eqn:Ej; try discriminate.
      rewrite (idx_pidx _ _ _ Ei), (idx_pidx _ _ _ Ej), (pidx_keq _ _ _ _ _ HD Ei Hi), (pidx_keq _ _ _ _ _ HD Ej Hj),
        (pidx_keq _ _ _ _ _ HD Ei Hj), (pidx_keq _ _ _ _ _ HD Ej Hi). auto.
  Qed.

  Lemma g2_edge_snoc h o p q : g2_edge keq dist_cost (h ++ [o]) p q =
    g2op_cost keq dist_cost p q o (g2_edge keq dist_cost h p q).
  Proof. unfold g2_edge. rewrite fold_left_app. auto. Qed.

  Lemma inserted_snoc h o : inserted (P := P) (h ++ [o]) = inserted h ++ op_points o.
  Proof. unfold inserted. rewrite flat_map_app. simpl. rewrite app_nil_r. auto. Qed.

  Lemma pidx_pts_iff pts o p : distinct pts ->
    (exists k, pidx p (g2op_pts pts o) = Some k) <->
    (exists k, pidx p pts = Some k) \/ exists q, In q (op_points o) /\ keq q p = true.
  Proof.
    intro Hd. unfold g2op_pts.
    assert (Hc : op_points o = [] \/ exists a b, op_points o = [a; b]) by (destruct o; simpl; eauto).
    destruct Hc as [->|(a & b & ->)].
    - split; auto. intros [|(q & [] & _)]; auto.
    - assert (HD : distinct (addpts pts a b)) by (apply ins_distinct, ins_distinct; auto). split.
      + intros [k Hk]. apply pidx_Some in Hk. destruct Hk as (x & Hx & Hxp).
        apply nth_error_In in Hx. apply in_ins in Hx. destruct Hx as [Hx|Hx].
        * apply in_ins in Hx. destruct Hx as [Hx|Hx].
          -- left. apply In_nth_error in Hx. destruct Hx as [n Hn]. exists n. eapply pidx_at; eauto.
          -- subst. right. exists a. simpl. auto.
        * subst. right. exists b. simpl. auto.
      + intros [[k Hk]|(q & Hq & Hqp)].
        * destruct (addpts_prefix pts a b) as [t ->]. exists k. apply pidx_prefix; auto.
        * destruct (pidx_addpts pts a b) as [Ha Hb].
          assert (exists k, pidx q (addpts pts a b) = Some k) as [k Hk]
            by (destruct Hq as [<-|[<-|[]]]; eauto).
          apply pidx_Some in Hk. destruct Hk as (x & Hx & Hxq). exists k. eapply pidx_at; eauto.
  Qed.

  Lemma op_cost_outside pts o op i j old : g2op_idx pts o = [op] -> 
    (forall g g', rep2 pts g -> g2_run_op keq dist_cost g o = Ok g' ->
    length (g2op_pts pts o) <= i \/ length (g2op_pts pts o) <= j ->
    old = None -> op_cost i j op old = None).
  Proof.
    intros Hop g g' HR E Hij ->.
    assert (HB : forall a b, op_points o = [a; b] ->
      idx pts a < length (g2op_pts pts o) /\ idx (ins pts a) b < length (g2op_pts pts o)).
    { intros a b Hab. unfold g2op_pts. rewrite Hab. destruct (pidx_addpts pts a b) as [Ha Hb].
      split; eapply idx_lt; eauto. }
    assert (HN : forall x y, (x < length (g2op_pts pts o) -> y < length (g2op_pts pts o) -> (x =? i) && (y =? j) = false)).
    { intros x y Hx Hy. destruct (Nat.eqb_spec x i), (Nat.eqb_spec y j); auto. lia. }
    destruct o; cbn [op_points g2op_idx] in *;
      match type of Hop with [?x] = [op] => assert (op = x) by congruence end; subst op; simpl; auto;
      try (destruct (HB _ _ eq_refl) as [B1 B2]; rewrite ?HN by auto; auto; fail).
    - destruct (_ && _); auto.
    - destruct (_ || _); auto.
  Qed.

  Lemma linked_step h pts g h' o g' : linked h pts g h' -> g2_run_op keq dist_cost g o = Ok g' ->
    exists op, linked (h ++ [o]) (g2op_pts pts o) g' (h' ++ [op]).
  Proof.
    intros HL E. pose proof HL as (HR & H2 & H3 & H4 & H5 & H6 & H7 & H8).
    destruct (step_rep pts g o g' HR E) as (HR' & op & Hop & Hrun). exists op.
    pose proof (run_op_edges _ _ _ Hrun) as HE.
    pose proof (hist_unique _ _ H2) as HK.
    assert (HLK : forall i j, look (g_edges (g2_graph g')) i j = op_cost i j op (look (g_edges (g2_graph g)) i j)).
    { intros. rewrite HE. apply look_step; auto. }
    destruct (g2op_pts_prefix pts o) as [t Ht].
    assert (HD' : distinct (g2op_pts pts o)) by apply HR'.
    split; [auto|]. split; [eapply run_ops_snoc; eauto|]. split.
    { intros i j p q Hi Hj. rewrite HLK, g2_edge_snoc.
      rewrite (step_cost pts g o g' op HR E Hop i j p q) by auto. f_equal.
      rewrite Ht in Hi, Hj, HD'. eapply edges_look; eauto. }
    split.
    { intros i j Hij. rewrite HLK. eapply op_cost_outside; eauto. apply H4.
      rewrite Ht, app_length in Hij. lia. }
    split.
    { intro p. rewrite pidx_pts_iff by apply HR. rewrite H5, inserted_snoc. split.
      - intros [(q & Hq & Hk)|(q & Hq & Hk)]; exists q; split; auto; apply in_or_app; auto.
      - intros (q & Hq & Hk). apply in_app_or in Hq. destruct Hq; eauto. }
    split.
    { unfold hist_infs, g2_infs in *. rewrite !flat_map_app, H6. f_equal. simpl. rewrite !app_nil_r.
      destruct o; cbn [g2op_idx] in Hop; match type of Hop with [?x] = [op] => assert (op = x) by congruence end; subst op; auto. }
    split.
    { rewrite !forallb_app. intro Hu. apply andb_true_iff in Hu. destruct Hu as [Hu1 Hu2].
      pose proof (H7 Hu1) as H10. simpl in *.
      assert (Hkeep : forall e a b k, am_find k e <> None -> am_find k (edges_remove e a b) <> None).
      { intros e a b k. unfold edges_remove. destruct (am_find a e) as [ma|]; auto. destruct (am_find b ma); auto.
        rewrite am_find_set. destruct (a =? k); auto. discriminate. }
      assert (Hlen : forall a b, length (addpts pts a b) <= S (S (length pts))).
      { intros a b. unfold addpts, ins. destruct (pidx a pts);
          (destruct (pidx b _); rewrite ?app_length; simpl; lia). }
      assert (Hadd : forall a b c k, edges_step (g_edges (g2_graph g)) (OAdd (idx pts a) (idx (ins pts a) b) c) = g_edges (g2_graph g') ->
        k < length (addpts pts a b) -> am_find k (g_edges (g2_graph g')) <> None).
      { intros a b c k He Hk. rewrite <- He. simpl. rewrite !edges_add_find.
        destruct (nth_error (addpts pts a b) k) as [x|] eqn:Ek; [|apply nth_error_None in Ek; lia].
        assert (HDa : distinct (addpts pts a b)) by (apply ins_distinct, ins_distinct, HR).
        assert (Hx : In x pts \/ x = a \/ x = b).
        { apply nth_error_In in Ek. unfold addpts in Ek. apply in_ins in Ek. destruct Ek as [Ek|]; auto.
          apply in_ins in Ek. destruct Ek; auto. }
        destruct (pidx_addpts pts a b) as [Ha Hb].
        assert (Hk' : pidx x (addpts pts a b) = Some k) by (eapply pidx_at; eauto).
        destruct Hx as [Hx|[-> | ->]].
        - right. right. apply H10. apply (in_pidx pts) in Hx; [|apply HR]. destruct Hx as [k' Hx].
          pose proof (idx_lt _ _ _ Hx). destruct (addpts_prefix pts a b) as [t' Et]. rewrite Et in Hk'.
          apply (pidx_prefix pts t') in Hx. assert (k' = k) by congruence. subst. auto.
        - right. left. congruence.
        - left. congruence. }
      destruct o; try discriminate; cbn [g2op_idx g2op_pts op_points] in *;
        match type of Hop with [?x] = [op] => assert (op = x) by congruence end; subst op.
      - intros k Hk. eapply Hadd; eauto.
      - intros k Hk. eapply Hadd; eauto.
      - intros k Hk. rewrite HE. simpl. apply Hkeep. auto.
      - intros k Hk. rewrite HE. simpl. apply Hkeep, Hkeep. auto.
      - intros k Hk. rewrite HE. simpl. auto.
      - intros k Hk. rewrite HE. simpl. auto. }
    { intros i m Hm.
      assert (Hf : am_find i (g_edges (g2_graph g')) <> None).
      { eapply in_edges_find; eauto. rewrite HE. apply edges_step_unique; auto. }
      assert (Hold : am_find i (g_edges (g2_graph g)) <> None -> i < length (g2op_pts pts o)).
      { intro H. apply find_edges_in in H. destruct H as [m0 H]. apply H8 in H. rewrite Ht, app_length. lia. }
      assert (HB : forall a b, op_points o = [a; b] ->
        idx pts a < length (g2op_pts pts o) /\ idx (ins pts a) b < length (g2op_pts pts o)).
      { intros a b Hab. unfold g2op_pts. rewrite Hab. destruct (pidx_addpts pts a b) as [Ha Hb].
        split; eapply idx_lt; eauto. }
      assert (Hrm : forall e a b, am_find i (edges_remove e a b) <> None -> am_find i e <> None).
      { intros e a b. unfold edges_remove. destruct (am_find a e) as [ma|] eqn:Ea; auto.
        destruct (am_find b ma); auto. rewrite am_find_set. destruct (Nat.eqb_spec a i) as [->|]; auto. congruence. }
      rewrite HE in Hf.
      destruct o; cbn [g2op_idx op_points] in *;
        match type of Hop with [?x] = [op] => assert (op = x) by congruence end; subst op;
        simpl in Hf; auto;
        try (destruct (HB _ _ eq_refl) as [B1 B2]; rewrite !edges_add_find in Hf;
             intuition (subst; auto); fail).
      - apply Hrm in Hf. auto.
      - apply Hrm, Hrm in Hf. auto. }
  Qed.

  Lemma linked_run h g : g2_run keq dist_cost h = Ok g -> exists pts h', linked h pts g h'.
  Proof.
    revert g. induction h as [|o h IH] using rev_ind; intros g E.
    - unfold g2_run in E. simpl in E. assert (g = g2_empty) by congruence. subst.
      exists [], []. apply linked_empty.
    - unfold g2_run in *. rewrite foldM_app in E. bok E. simpl in E. bok E.
      assert (r0 = g) by congruence. subst r0. destruct (IH r E0) as (pts & h' & HL).
      destruct (linked_step _ _ _ _ _ _ HL E1) as [op HL']. eauto.
  Qed.

  Lemma linked_mono h h2 g g2 pts h' : linked h pts g h' -> foldM (g2_run_op keq dist_cost) h2 g = Ok g2 ->
    exists t h2', linked (h ++ h2) (pts ++ t) g2 h2'.
  Proof.
    revert h g pts h'. induction h2 as [|o h2 IH]; intros h g pts h' HL E; simpl in E.
    - assert (g = g2) by congruence. subst. exists [], h'. rewrite !app_nil_r. auto.
    - bok E. destruct (linked_step _ _ _ _ _ _ HL E0) as [op HL'].
      destruct (g2op_pts_prefix pts o) as [t Ht]. rewrite Ht in HL'.
      destruct (IH _ _ _ _ HL' E) as (t2 & h2' & HL2).
      rewrite <- !app_assoc in HL2. exists (t ++ t2), h2'. exact HL2.
  Qed.

  (** ** Caches *)
  Lemma cache_g2_step (Q : Z -> Prop) pts g o g' : rep2 pts g -> (forall i, In i (g2op_infs o) -> Q i) ->
    is_removal o = false -> cache_ok Q (g2_graph g) -> g2_run_op keq dist_cost g o = Ok g' -> cache_ok Q (g2_graph g').
  Proof.
    intros HR HQ Hr HC E. destruct (step_rep pts g o g' HR E) as (_ & op & Hop & Hrun).
    apply (cache_step Q (g2_graph g) op); auto; destruct o; cbn [g2op_idx] in Hop; try discriminate;
      match type of Hop with [?x] = [op] => assert (op = x) by congruence end; subst op; simpl in *; auto.
  Qed.

  Lemma cache_g2_edit pts g o g' : rep2 pts g -> is_query o = false ->
    cache_ok (fun _ => False) (g2_graph g) -> g2_run_op keq dist_cost g o = Ok g' -> cache_ok (fun _ => False) (g2_graph g').
  Proof.
    intros HR Hr HC E. destruct (is_removal o) eqn:Er.
    - destruct (step_rep pts g o g' HR E) as (_ & op & Hop & Hrun).
      assert (HN : g_dist (g2_graph g) = [] /\ g_next (g2_graph g) = [] /\ g_paths (g2_graph g) = []).
      { destruct HC as [[[H1 H2]|(I0 & [] & _)] H3]. destruct H3 as [H3|(H3 & I0 & d & nx & [] & _)]. auto. }
      destruct HN as (N1 & N2 & N3).
      assert (G : g_dist (g2_graph g') = [] /\ g_next (g2_graph g') = [] /\ g_paths (g2_graph g') = []).
      { destruct o; try discriminate; cbn [g2op_idx] in Hop;
          match type of Hop with [?x] = [op] => assert (op = x) by congruence end; subst op; simpl in Hrun;
          match type of Hrun with Ok ?x = _ => assert (g2_graph g' = x) by congruence end; 
          match goal with H : g2_graph g' = _ |- _ => rewrite H end; auto. }
      destruct G as (G1 & G2 & G3). split; auto.
    - eapply cache_g2_step; eauto. destruct o; try discriminate; simpl; tauto.
  Qed.

  Lemma cache_g2_hist (Q : Z -> Prop) h1 h2 g : (forall i, In i (g2_infs h2) -> Q i) ->
    forallb (fun o => negb (is_query o)) h1 = true -> forallb (fun o => negb (is_removal o)) h2 = true ->
    g2_run keq dist_cost (h1 ++ h2) = Ok g -> cache_ok Q (g2_graph g).
  Proof.
    intros HQ H1 H2 E. unfold g2_run in E. rewrite foldM_app in E. bok E.
    assert (HC : cache_ok (fun _ => False) (g2_graph r)).
    { clear E g HQ H2 h2. revert r E0 H1. induction h1 as [|o h IH] using rev_ind; intros r E H1.
      - simpl in E. assert (r = g2_empty) by congruence. subst. apply cache_empty.
      - rewrite foldM_app in E. bok E. simpl in E. bok E. assert (r1 = r) by congruence. subst r1.
        rewrite forallb_app in H1. apply andb_true_iff in H1. destruct H1 as [H1 Ho]. simpl in Ho.
        destruct (linked_run h r0 E0) as (pts & h' & HL).
        eapply cache_g2_edit; [apply HL| | |exact E1]; auto. destruct (is_query o); auto; discriminate. }
    assert (HC' : cache_ok Q (g2_graph r)).
    { destruct HC as [[[A B]|(I0 & [] & _)] D]. destruct D as [D|(D & I0 & d & nx & [] & _)]. split; auto. }
    clear HC. destruct (linked_run h1 r E0) as (pts & h' & HL). clear E0 H1.
    revert r pts h1 h' HL E HC' H2 HQ. induction h2 as [|o h IH]; intros r pts h1 h' HL E HC H2 HQ; simpl in E.
    - congruence.
    - bok E. simpl in H2. apply andb_true_iff in H2. destruct H2 as [Ho H2].
      destruct (linked_step _ _ _ _ _ _ HL E0) as [op HL'].
      eapply IH; [exact HL'|exact E| |auto|].
      + eapply cache_g2_step; [apply HL| | |exact HC|exact E0].
        * intros i Hi. apply HQ. simpl. apply in_or_app. auto.
        * destruct (is_removal o); auto; discriminate.
      + intros i Hi. apply HQ. simpl. apply in_or_app. auto.
  Qed.
End Proofs.
