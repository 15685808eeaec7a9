(** Model of f2c::types::Graph2D (src/fields2cover/types/Graph2D.cpp), the graph
    whose nodes are points. *)
From Coq Require Import List Arith ZArith Bool.
From Verif Require Import Outcome Graph_Model.
Import ListNotations.

Section Graph2D.
  Context {P : Type}.
  (** Key comparison of unordered_map<Point, size_t>
      (include/fields2cover/types/Graph2D.h:56).  An unordered_map only behaves
      as a map when this is an equivalence that the hash respects; the theorems
      say where they need that, C22 says when it fails. *)
  Variable keq : P -> P -> bool.
  (** int64_t(scale_ * from.distance(to)) with scale_ = 1e3
      (src/fields2cover/types/Graph2D.cpp:29,33; include/fields2cover/types/Graph2D.h:60). *)
  Variable dist_cost : P -> P -> Z.
  (** Iteration order of the inner maps, see Graph_Model.getEdgesFrom
      (src/fields2cover/types/Graph.cpp:57). *)
  Variable enum : list (nat * Z) -> list nat.

  (** include/fields2cover/types/Graph2D.h:18,55-57: the base class and the two maps. *)
  Record graph2d : Type := mkGraph2D {
    g2_graph : graph;
    g2_n2i : list (P * nat);
    g2_i2n : list (nat * P)
  }.

  (** A default-constructed Graph2D (include/fields2cover/types/Graph2D.h:18). *)
  Definition g2_empty : graph2d := mkGraph2D graph_empty [] [].

  (** nodes_to_index_.find (src/fields2cover/types/Graph2D.cpp:14,70). *)
  Fixpoint n2i_find (p : P) (m : list (P * nat)) : option nat :=
    match m with
    | [] => None
    | (q, k) :: m => if keq q p then Some k else n2i_find p m
    end.

  (** nodes_to_index_.insert(make_pair(p, size())).first->second
      (src/fields2cover/types/Graph2D.cpp:14-17). *)
  Definition n2i_insert (p : P) (m : list (P * nat)) : list (P * nat) * nat :=
    match n2i_find p m with
    | Some k => (m, k)
    | None => (m ++ [(p, length m)], length m)
    end.

  (** index_to_nodes_.insert of one pair: keeps an existing entry
      (src/fields2cover/types/Graph2D.cpp:18). *)
  Definition i2n_insert (k : nat) (p : P) (m : list (nat * P)) : list (nat * P) :=
    match am_find k m with Some _ => m | None => m ++ [(k, p)] end.

  (** src/fields2cover/types/Graph2D.cpp:12-21. *)
  Definition g2_addDirectedEdge (g : graph2d) (from to : P) (cost : Z) : graph2d :=
    let (m1, p_from) := n2i_insert from (g2_n2i g) in
    let (m2, p_to) := n2i_insert to m1 in
    let i2n := i2n_insert p_to to (i2n_insert p_from from (g2_i2n g)) in
    mkGraph2D (addDirectedEdge (g2_graph g) p_from p_to cost) m2 i2n.

  (** src/fields2cover/types/Graph2D.cpp:23-26. *)
  Definition g2_addEdge (g : graph2d) (i j : P) (cost : Z) : graph2d :=
    g2_addDirectedEdge (g2_addDirectedEdge g i j cost) j i cost.

  (** src/fields2cover/types/Graph2D.cpp:28-30. *)
  Definition g2_addDirectedEdge_dist (g : graph2d) (from to : P) : graph2d :=
    g2_addDirectedEdge g from to (dist_cost from to).

  (** src/fields2cover/types/Graph2D.cpp:32-34. *)
  Definition g2_addEdge_dist (g : graph2d) (i j : P) : graph2d :=
    g2_addEdge g i j (dist_cost i j).

  (** src/fields2cover/types/Graph2D.cpp:57-59. *)
  Definition g2_numNodes (g : graph2d) : nat := length (g2_n2i g).

  (** src/fields2cover/types/Graph2D.cpp:61-67 (in insertion order; the code
      follows the hash order). *)
  Definition g2_getNodes (g : graph2d) : list P := map fst (g2_n2i g).

  (** src/fields2cover/types/Graph2D.cpp:69-71: unordered_map::at. *)
  Definition g2_nodeToIndex (g : graph2d) (p : P) : outcome nat :=
    match n2i_find p (g2_n2i g) with Some k => Ok k | None => Throw OutOfRange end.

  (** src/fields2cover/types/Graph2D.cpp:73-75. *)
  Definition g2_indexToNode (g : graph2d) (k : nat) : outcome P :=
    match am_find k (g2_i2n g) with Some p => Ok p | None => Throw OutOfRange end.

  (** src/fields2cover/types/Graph2D.cpp:48-51. *)
  Definition g2_removeDirectedEdge (g : graph2d) (from to : P) : outcome graph2d :=
    do a <- g2_nodeToIndex g from;
    do b <- g2_nodeToIndex g to;
    Ok (mkGraph2D (removeDirectedEdge (g2_graph g) a b) (g2_n2i g) (g2_i2n g)).

  (** src/fields2cover/types/Graph2D.cpp:53-55. *)
  Definition g2_removeEdge (g : graph2d) (i j : P) : outcome graph2d :=
    do g1 <- g2_removeDirectedEdge g i j; g2_removeDirectedEdge g1 j i.

  (** The default INF of the point overloads, 1<<30
      (include/fields2cover/types/Graph2D.h:50,53). *)
  Definition g2_INF : Z := 1073741824%Z.

  (** src/fields2cover/types/Graph2D.cpp:91-99. *)
  Definition g2_shortestPath (g : graph2d) (from to : P) (INF : Z)
    : outcome (graph2d * list P) :=
    do a <- g2_nodeToIndex g from;
    do b <- g2_nodeToIndex g to;
    do r <- shortestPath (g2_graph g) a b INF;
    let g' := mkGraph2D (fst r) (g2_n2i g) (g2_i2n g) in
    do path <- mapM (g2_indexToNode g') (snd r);
    Ok (g', path).

  (** src/fields2cover/types/Graph2D.cpp:101-104. *)
  Definition g2_shortestPathCost (g : graph2d) (from to : P) (INF : Z)
    : outcome (graph2d * Z) :=
    do a <- g2_nodeToIndex g from;
    do b <- g2_nodeToIndex g to;
    do r <- shortestPathCost (g2_graph g) a b INF;
    Ok (mkGraph2D (fst r) (g2_n2i g) (g2_i2n g), snd r).

  (** src/fields2cover/types/Graph2D.cpp:77-89. *)
  Definition g2_allPathsBetween (g : graph2d) (from to : P) : outcome (list (list P)) :=
    do a <- g2_nodeToIndex g from;
    do b <- g2_nodeToIndex g to;
    do rs <- allPathsBetween enum (g_edges (g2_graph g)) a b;
    mapM (mapM (g2_indexToNode g)) rs.

  (** src/fields2cover/types/Graph2D.cpp:36-39: the new edge's cost is the
      shortest path cost in another graph, whose caches may change. *)
  Definition g2_addDirectedEdge_short (g : graph2d) (from to : P) (sg : graph2d)
    : outcome (graph2d * graph2d) :=
    do r <- g2_shortestPathCost sg from to g2_INF;
    Ok (g2_addDirectedEdge g from to (snd r), fst r).

  (** src/fields2cover/types/Graph2D.cpp:41-45. *)
  Definition g2_addEdge_short (g : graph2d) (i j : P) (sg : graph2d)
    : outcome (graph2d * graph2d) :=
    do r <- g2_shortestPathCost sg i j g2_INF;
    let g1 := g2_addDirectedEdge g i j (snd r) in
    do r2 <- g2_shortestPathCost (fst r) j i g2_INF;
    Ok (g2_addDirectedEdge g1 j i (snd r2), fst r2).

  (** The point interface (include/fields2cover/types/Graph2D.h:28-53) as client
      steps.  The inherited index overloads (Graph2D.h:20-26) are left out: they
      can add indices no point belongs to. *)
  Inductive g2op : Type :=
  | G2AddDirected (from to : P) (cost : Z)
  | G2Add (i j : P) (cost : Z)
  | G2AddDirectedDist (from to : P)
  | G2AddDist (i j : P)
  | G2RemoveDirected (from to : P)
  | G2Remove (i j : P)
  | G2Path (from to : P) (INF : Z)
  | G2Cost (from to : P) (INF : Z).

  (** One call (src/fields2cover/types/Graph2D.cpp:12-55,91-104). *)
  Definition g2_run_op (g : graph2d) (o : g2op) : outcome graph2d :=
    match o with
    | G2AddDirected a b c => Ok (g2_addDirectedEdge g a b c)
    | G2Add a b c => Ok (g2_addEdge g a b c)
    | G2AddDirectedDist a b => Ok (g2_addDirectedEdge_dist g a b)
    | G2AddDist a b => Ok (g2_addEdge_dist g a b)
    | G2RemoveDirected a b => g2_removeDirectedEdge g a b
    | G2Remove a b => g2_removeEdge g a b
    | G2Path a b INF => do r <- g2_shortestPath g a b INF; Ok (fst r)
    | G2Cost a b INF => do r <- g2_shortestPathCost g a b INF; Ok (fst r)
    end.

  (** A client program on a default-constructed Graph2D
      (include/fields2cover/types/Graph2D.h:18). *)
  Definition g2_run (h : list g2op) : outcome graph2d := foldM g2_run_op h g2_empty.
End Graph2D.
Arguments graph2d : clear implicits.
Arguments mkGraph2D {P}.
Arguments g2op : clear implicits.
