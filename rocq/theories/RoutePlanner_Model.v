(** Model of RoutePlannerBase (src/fields2cover/route_planning/route_planner_base.cpp). *)
From Coq Require Import List Arith ZArith Bool.
From Verif Require Import Outcome Swath_Model Graph_Model Graph2D_Model Route_Model.
Import ListNotations.

Section RoutePlanner.
  Context {P W : Type}.
  (** See Swath_Model and Graph2D_Model (src/fields2cover/types/Swath.cpp:94,172,
      include/fields2cover/types/Swath.h:100, include/fields2cover/types/Graph2D.h:56,
      src/fields2cover/types/Graph2D.cpp:29). *)
  Variable p_default : P.
  Variable w_nonpos : W -> bool.
  Variable w_zero : W.
  Variable wkt : P -> P.
  Variable keq : P -> P -> bool.
  Variable dist_cost : P -> P -> Z.
  (** (a + b) * 0.5 (src/fields2cover/route_planning/route_planner_base.cpp:98). *)
  Variable mid : P -> P -> P.
  (** Point(-1e8, -1e8) (src/fields2cover/route_planning/route_planner_base.cpp:130). *)
  Variable far : P.
  (** cells.closestPointOnBorderTo (src/fields2cover/types/Cells.cpp:246-254);
      undefined for an empty Cells. *)
  Variable closest : P -> outcome P.
  (** near a b n: n.distance(LineString{a, b}) < d_tol
      (src/fields2cover/route_planning/route_planner_base.cpp:76-78). *)
  Variable near : P -> P -> P -> bool.
  (** Iteration order of the node map and of the edge map
      (src/fields2cover/types/Graph2D.cpp:61-67,
      src/fields2cover/route_planning/route_planner_base.cpp:70-73). *)
  Variable node_order : list P -> list P.
  Variable edge_order : edges_t -> list (nat * nat).
  (** The routing solver of computeBestRoute
      (src/fields2cover/route_planning/route_planner_base.cpp:152-181): node ids
      visited between leaving the depot and coming back to it; None when
      SolveWithParameters returns a null pointer. *)
  Variable solver : graph2d P -> nat -> option (list nat).

  Notation swath := (swath P W).
  Notation start := (swath_startPoint p_default).
  Notation stop := (swath_endPoint p_default).

  (** src/fields2cover/route_planning/route_planner_base.cpp:55-57, one ring;
      on an empty ring [size()-1] wraps and getGeometry(0) throws. *)
  Fixpoint ring_edges (g : graph2d P) (ring : list P) : graph2d P :=
    match ring with
    | a :: ((b :: _) as t) => ring_edges (g2_addEdge_dist keq dist_cost g a b) t
    | _ => g
    end.
  (** src/fields2cover/route_planning/route_planner_base.cpp:53-59. *)
  Definition add_rings (g : graph2d P) (rings : list (list P)) : outcome (graph2d P) :=
    foldM (fun g ring => match ring with [] => Throw OutOfRange | _ => Ok (ring_edges g ring) end) rings g.

  (** src/fields2cover/route_planning/route_planner_base.cpp:72-83, one edge of
      the snapshot and all nodes. *)
  Definition split_edge (nodes : list P) (g : graph2d P) (ft : nat * nat) : outcome (graph2d P) :=
    do a <- g2_indexToNode g (fst ft);
    do b <- g2_indexToNode g (snd ft);
    foldM (fun g n =>
      if negb (keq n a) && negb (keq n b) && near a b n then
        g2_removeEdge keq (g2_addEdge_dist keq dist_cost (g2_addEdge_dist keq dist_cost g a n) n b) a b
      else Ok g) nodes g.

  (** src/fields2cover/route_planning/route_planner_base.cpp:69-86, one of the two passes. *)
  Definition split_pass (nodes : list P) (g : graph2d P) : outcome (graph2d P) :=
    foldM (split_edge nodes) (edge_order (g_edges (g2_graph g))) g.

  (** src/fields2cover/route_planning/route_planner_base.cpp:45-50. *)
  Definition add_stubs (g : graph2d P) (ss : list swath) : outcome (graph2d P) :=
    foldM (fun g s =>
      do c1 <- closest (start s);
      do c2 <- closest (stop s);
      Ok (g2_addEdge_dist keq dist_cost (g2_addEdge_dist keq dist_cost g (start s) c1) (stop s) c2)) ss g.

  (** src/fields2cover/route_planning/route_planner_base.cpp:40-88; the nested
      range-for loops over cells and swaths visit [concat sbc]; [rings] are the
      rings of all cells in order. *)
  Definition createShortestGraph (r_start_end : option P) (rings : list (list P))
    (sbc : list (list swath)) : outcome (graph2d P) :=
    do g1 <- add_stubs g2_empty (concat sbc);
    do g2 <- add_rings g1 rings;
    do g3 <- match r_start_end with
             | Some p => do c <- closest p; Ok (g2_addEdge_dist keq dist_cost g2 p c)
             | None => Ok g2
             end;
    let nodes := node_order (g2_getNodes g3) in
    do g4 <- split_pass nodes g3;
    split_pass nodes g4.

  (** src/fields2cover/route_planning/route_planner_base.cpp:96-108, one swath. *)
  Definition cov_swath (redirect : bool) (g : graph2d P) (s : swath) : graph2d P :=
    let mid_p := mid (start s) (stop s) in
    if redirect
    then g2_addEdge keq (g2_addEdge keq g (start s) mid_p 0) (stop s) mid_p 0
    else g2_addDirectedEdge keq (g2_addDirectedEdge keq g (start s) mid_p 0) mid_p (stop s) 0.

  (** src/fields2cover/route_planning/route_planner_base.cpp:109-128, one pair;
      the shortest path costs come from [sg], whose cache may change. *)
  Definition cov_pair (redirect : bool) (gs : graph2d P * graph2d P) (ss : swath * swath)
    : outcome (graph2d P * graph2d P) :=
    let (s1, s2) := ss in
    if redirect then
      do x1 <- g2_addEdge_short keq (fst gs) (start s1) (start s2) (snd gs);
      do x2 <- g2_addEdge_short keq (fst x1) (stop s1) (stop s2) (snd x1);
      do x3 <- g2_addEdge_short keq (fst x2) (start s1) (stop s2) (snd x2);
      g2_addEdge_short keq (fst x3) (stop s1) (start s2) (snd x3)
    else g2_addDirectedEdge_short keq (fst gs) (stop s1) (start s2) (snd gs).

  (** src/fields2cover/route_planning/route_planner_base.cpp:130-145, one swath. *)
  Definition cov_depot (r_start_end : option P) (gs : graph2d P * graph2d P) (s : swath)
    : outcome (graph2d P * graph2d P) :=
    match r_start_end with
    | Some d =>
      do x1 <- g2_addEdge_short keq (fst gs) (start s) d (snd gs);
      g2_addEdge_short keq (fst x1) (stop s) d (snd x1)
    | None =>
      Ok (g2_addEdge keq (g2_addEdge keq (fst gs) (start s) far 0) (stop s) far 0, snd gs)
    end.

  (** src/fields2cover/route_planning/route_planner_base.cpp:91-147. *)
  Definition createCoverageGraph (r_start_end : option P) (sbc : list (list swath))
    (sg : graph2d P) (redirect : bool) : outcome (graph2d P * graph2d P) :=
    let ss := concat sbc in
    let g1 := fold_left (cov_swath redirect) ss g2_empty in
    do x <- foldM (cov_pair redirect) (list_prod ss ss) (g1, sg);
    foldM (cov_depot r_start_end) ss x.

  (** src/fields2cover/route_planning/route_planner_base.cpp:149-191: the depot is
      node numNodes()-1 (int; numNodes() = 0 gives node -1, which the solver's
      index manager rejects with a fatal check); a null solution is dereferenced. *)
  Definition computeBestRoute (g : graph2d P) : outcome (list nat) :=
    if g2_numNodes g =? 0 then UB
    else match solver g (g2_numNodes g - 1) with
         | Some ids => Ok ids
         | None => UB
         end.

  (** src/fields2cover/route_planning/route_planner_base.cpp:204-221, one
      candidate swath of the inner loop: the clone, reversed if necessary, or
      None when it does not fit. *)
  Definition match_swath (p_s p_e : P) (s : swath) : outcome (option swath) :=
    do c <- swath_clone w_nonpos w_zero wkt s;
    if keq p_s (start c) && keq p_e (stop c) then Ok (Some c)
    else if keq p_e (start c) && keq p_s (stop c) then Ok (Some (swath_reverse c))
    else Ok None.

  (** src/fields2cover/route_planning/route_planner_base.cpp:203-222: the inner
      loop up to its break. *)
  Fixpoint find_swath (p_s p_e : P) (ss : list swath) : outcome (option swath) :=
    match ss with
    | [] => Ok None
    | s :: ss =>
      do m <- match_swath p_s p_e s;
      match m with Some c => Ok (Some c) | None => find_swath p_s p_e ss end
    end.

  (** src/fields2cover/route_planning/route_planner_base.cpp:206-210 (and 213-218). *)
  Definition add_to_route (r_start_end : option P) (rs : route P W * graph2d P) (c : swath)
    : outcome (route P W * graph2d P) :=
    do rs1 <- match r_start_end with
              | Some p =>
                if r_isEmpty (fst rs) then
                  do q <- g2_shortestPath keq (snd rs) p (start c) g2_INF;
                  do r1 <- r_addConnection_points (fst rs) (snd q);
                  Ok (r1, fst q)
                else Ok rs
              | None => Ok rs
              end;
    r_addSwath_graph p_default keq (fst rs1) c (snd rs1).

  (** src/fields2cover/route_planning/route_planner_base.cpp:200-223, the body
      for one index [i]; operator[] on the ids, indexToNode throws. *)
  Definition transform_step (r_start_end : option P) (ids : list nat) (ss : list swath)
    (g : graph2d P) (rs : route P W * graph2d P) (i : nat) : outcome (route P W * graph2d P) :=
    do a <- vec_index ids i;
    do p_s <- g2_indexToNode g a;
    do b <- vec_index ids (i + 2);
    do p_e <- g2_indexToNode g b;
    do m <- find_swath p_s p_e ss;
    match m with
    | Some c => add_to_route r_start_end rs c
    | None => Ok rs
    end.

  (** src/fields2cover/route_planning/route_planner_base.cpp:193-228.  With fewer
      than two ids [size() - 2] wraps to 2^64 - 1 or 2^64 - 2 and the first
      accesses are already out of range.  getSwath(j) for j < sizeTotal() is
      element j of the flattened list (global_index_is_flatten_index). *)
  Definition transformSolutionToRoute (r_start_end : option P) (ids : list nat)
    (sbc : list (list swath)) (g sg : graph2d P) : outcome (route P W * graph2d P) :=
    let steps := if length ids <? 2 then [0] else seq 0 (length ids - 2) in
    do rs <- foldM (transform_step r_start_end ids (concat sbc) g) steps (r_empty, sg);
    match r_start_end with
    | Some p =>
      do e <- r_endPoint p_default (fst rs);
      do q <- g2_shortestPath keq (snd rs) e p g2_INF;
      do r1 <- r_addConnection_points (fst rs) (snd q);
      Ok (r1, fst q)
    | None => Ok rs
    end.

  (** src/fields2cover/route_planning/route_planner_base.cpp:21-34. *)
  Definition genRoute (r_start_end : option P) (rings : list (list P)) (sbc : list (list swath))
    (redirect : bool) : outcome (route P W) :=
    do sg <- createShortestGraph r_start_end rings sbc;
    do x <- createCoverageGraph r_start_end sbc sg redirect;
    do ids <- computeBestRoute (fst x);
    do rs <- transformSolutionToRoute r_start_end ids sbc (fst x) (snd x);
    Ok (fst rs).
End RoutePlanner.
