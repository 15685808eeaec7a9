(** C276: how large INF may be.  The default is 1e15 (Graph.h:45,56,63), but
    every int64_t can be passed. *)
From Coq Require Import List Arith ZArith Bool Lia.
From Verif Require Import Outcome Graph_Model Graph_Spec Graph_Props.
Import ListNotations.
Open Scope Z_scope.

(** Up to 2^62 no graph with costs in [0, INF) overflows; above 2^62, whatever
    the INF, a single undirected edge of cost 2^62 already adds two costs whose
    sum is no int64_t (undefined behaviour), although its cost is below INF. *)
Theorem inf_bound_sharp :
  (forall INF e, 0 < INF <= 2 ^ 62 -> keys_unique e -> ids_dense e ->
     (forall i j c, edge_in e i j c -> 0 <= c < INF) ->
     exists dist next, shortestPathsAndCosts e INF = Ok (dist, next)) /\
  (forall INF, 2 ^ 62 < INF <= 2 ^ 63 - 1 ->
     let h := [OAdd 0 1 (2 ^ 62)] in
     exists g, run_ops h = Ok g /\ keys_unique (g_edges g) /\ ids_dense (g_edges g) /\
       (forall i j c, edge_in (g_edges g) i j c -> 0 <= c < INF) /\
       shortestPathsAndCosts (g_edges g) INF = UB /\
       shortestPath g 0 1 INF = UB /\ shortestPathCost g 0 1 INF = UB).
Proof.
  split.
  - intros INF e HI Hk Hd Hc.
    apply (path_query_safe_iff e INF Hk); [|exact Hd]. split; [exact HI|exact Hc].
  - intros INF HI h. eexists. split; [reflexivity|]. cbn [g_edges].
    assert (E : forall C, C = 2 ^ 62 -> shortestPathsAndCosts
                  [(0%nat, [(1%nat, C)]); (1%nat, [(0%nat, C)])] INF = UB).
    { intros C HC. unfold shortestPathsAndCosts, initializeMatrices.
      cbn -[Z.ltb Z.pow Z.add add64 Z.sub floyd_warshall reconstruct_loop].
      set (dn := ([[0; C]; [C; 0]], [[-1; 1]; [0; -1]])).
      assert (I0 : (0 <? INF) = true) by (apply Z.ltb_lt; lia).
      assert (IC : (C <? INF) = true) by (apply Z.ltb_lt; lia).
      assert (A0 : add64 0 0 = Ok 0) by reflexivity.
      assert (A1 : add64 0 C = Ok C) by (subst C; reflexivity).
      assert (A2 : add64 C 0 = Ok C) by (subst C; reflexivity).
      assert (A3 : add64 C C = UB) by (subst C; reflexivity).
      assert (L : (C <? C) = false) by apply Z.ltb_irrefl.
      assert (F : floyd_warshall INF 2 dn = UB); [|rewrite F; reflexivity].
      unfold floyd_warshall. cbn [seq foldM].
      assert (B1 : fw_body INF 0 0 dn 0 = Ok dn).
      { cbn -[Z.ltb add64]. rewrite I0, A0. cbn. reflexivity. }
      assert (B2 : fw_body INF 0 0 dn 1 = Ok dn).
      { cbn -[Z.ltb add64]. rewrite I0, IC, A1. cbn [bind]. rewrite L. reflexivity. }
      assert (B3 : fw_body INF 0 1 dn 0 = Ok dn).
      { cbn -[Z.ltb add64]. rewrite I0, IC, A2. cbn [bind]. rewrite L. reflexivity. }
      assert (B4 : fw_body INF 0 1 dn 1 = UB).
      { cbn -[Z.ltb add64]. rewrite IC, A3. reflexivity. }
      rewrite B1. cbn [bind]. rewrite B2. cbn [bind]. rewrite B3. cbn [bind]. rewrite B4. reflexivity. }
    specialize (E (2 ^ 62) eq_refl).
    assert (Q : forall c, In c [2 ^ 62] -> 0 <= c < INF) by (intros c [<-|[]]; lia).
    split; [split; [repeat constructor; simpl; intuition discriminate
                   |intros i m [H|[H|[]]]; injection H as <- <-; repeat constructor; simpl; tauto]|].
    split; [split; [intros i m [H|[H|[]]]; injection H as <- <-; simpl; lia
                   |intros i j c (m & [H|[H|[]]] & Hj); injection H as <- <-;
                    destruct Hj as [H|[]]; injection H as <- <-; simpl; lia]|].
    split; [intros i j c (m & [H|[H|[]]] & Hj); injection H as <- <-;
            destruct Hj as [H|[]]; injection H as <- <-; lia|].
    unfold shortestPath, shortestPathCost, g_fill. cbn [g_edges g_next g_dist].
    match goal with |- context [shortestPathsAndCosts ?e INF] =>
      change e with [(0%nat, [(1%nat, 2 ^ 62)]); (1%nat, [(0%nat, 2 ^ 62)])] end.
    rewrite E. repeat split.
Qed.
Print Assumptions inf_bound_sharp.

(** Both halves speak about real graphs: three nodes at the default INF, and INF = INT64_MAX. *)
Example inf_bound_sharp_ex :
  (exists g, run_ops [OAdd 0 1 5; OAdd 1 2 7] = Ok g /\ 0 < INF_default <= 2 ^ 62 /\
     keys_unique (g_edges g) /\ ids_dense (g_edges g) /\
     (forall i j c, edge_in (g_edges g) i j c -> 0 <= c < INF_default)) /\
  2 ^ 62 < 9223372036854775807 <= 2 ^ 63 - 1.
Proof.
  split; [|lia]. eexists. split; [vm_compute; reflexivity|]. cbn [g_edges]. unfold INF_default.
  split; [lia|]. split; [split|split; [split|]].
  - simpl. repeat constructor; simpl; intuition lia.
  - intros i m H. in_cases; simpl; repeat constructor; simpl; intuition lia.
  - intros; in_cases; simpl; lia.
  - unfold edge_in; intros; in_cases; simpl; lia.
  - unfold edge_in; intros; in_cases; lia.
Qed.
