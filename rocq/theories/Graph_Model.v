(** Model of f2c::types::Graph (src/fields2cover/types/Graph.cpp). *)
From Coq Require Import List Arith ZArith Bool.
From Verif Require Import Outcome.
Import ListNotations.

(** Arithmetic on int64_t: overflow is undefined behaviour
    (used in src/fields2cover/types/Graph.cpp:132-133). *)
Definition add64 (a b : Z) : outcome Z :=
  if ((- 9223372036854775808 <=? a + b) && (a + b <=? 9223372036854775807))%Z
  then Ok (a + b)%Z else UB.

(** include/fields2cover/types/Graph.h:20-21: std::unordered_map as an
    association list without duplicate keys.  The list order stands for the
    iteration order, which the standard leaves open. *)
Notation amap V := (list (nat * V)) (only parsing).

(** unordered_map::find / count (src/fields2cover/types/Graph.cpp:29,64). *)
Fixpoint am_find {V} (k : nat) (m : amap V) : option V :=
  match m with
  | [] => None
  | (k', v) :: m => if k' =? k then Some v else am_find k m
  end.

(** unordered_map::operator[] followed by assignment
    (src/fields2cover/types/Graph.cpp:14). *)
Fixpoint am_set {V} (k : nat) (v : V) (m : amap V) : amap V :=
  match m with
  | [] => [(k, v)]
  | (k', v') :: m => if k' =? k then (k, v) :: m else (k', v') :: am_set k v m
  end.

(** unordered_map::erase (src/fields2cover/types/Graph.cpp:32). *)
Fixpoint am_erase {V} (k : nat) (m : amap V) : amap V :=
  match m with
  | [] => []
  | (k', v') :: m => if k' =? k then m else (k', v') :: am_erase k m
  end.

(** include/fields2cover/types/Graph.h:20-21. *)
Notation edges_t := (list (nat * list (nat * Z))) (only parsing).
(** include/fields2cover/types/Graph.h:74-75: vector of vectors. *)
Notation mat := (list (list Z)) (only parsing).

(** m[i][j] on a vector of vectors (src/fields2cover/types/Graph.cpp:130-146). *)
Definition mget {A} (m : list (list A)) (i j : nat) : outcome A :=
  do r <- vec_index m i; vec_index r j.
(** m[i][j] = v (src/fields2cover/types/Graph.cpp:119-122,133-134,149). *)
Definition mset {A} (m : list (list A)) (i j : nat) (v : A) : outcome (list (list A)) :=
  do r <- vec_index m i; do r' <- vec_set r j v; vec_set m i r'.
(** assign(N, std::vector(N, v)) (src/fields2cover/types/Graph.cpp:104-105,168). *)
Definition mat_const {A} (n : nat) (v : A) : list (list A) := repeat (repeat v n) n.

(** src/fields2cover/types/Graph.cpp:39-41. *)
Definition numNodes (e : edges_t) : nat := length e.

(** src/fields2cover/types/Graph.cpp:43-46 (sizes below 2^31). *)
Definition numEdges (e : edges_t) : nat :=
  fold_left (fun sum p => sum + length (snd p)) e 0.

(** src/fields2cover/types/Graph.cpp:63-68. *)
Definition getCostFromEdge (e : edges_t) (from to : nat) (INF : Z) : Z :=
  match am_find from e with
  | None => INF
  | Some m => match am_find to m with None => INF | Some c => c end
  end.

(** src/fields2cover/types/Graph.cpp:14: edges_[from][to] = cost;
    operator[] creates the inner map when it is missing. *)
Definition edges_add (e : edges_t) (from to : nat) (cost : Z) : edges_t :=
  am_set from (am_set to cost (match am_find from e with Some m => m | None => [] end)) e.

(** src/fields2cover/types/Graph.cpp:29-32: the outer key stays. *)
Definition edges_remove (e : edges_t) (from to : nat) : edges_t :=
  match am_find from e with
  | None => e
  | Some m => match am_find to m with
              | None => e
              | Some _ => am_set from (am_erase to m) e
              end
  end.

(** src/fields2cover/types/Graph.cpp:117-123: direct connections. *)
Definition init_direct (e : edges_t) (dn : mat * mat) : outcome (mat * mat) :=
  foldM (fun dn src =>
    do dn1 <- foldM (fun dn dest =>
        do d <- mset (fst dn) (fst src) (fst dest) (snd dest);
        do n <- mset (snd dn) (fst src) (fst dest) (Z.of_nat (fst dest));
        Ok (d, n)) (snd src) dn;
    do d <- mset (fst dn1) (fst src) (fst src) 0%Z;
    Ok (d, snd dn1)) e dn.

(** src/fields2cover/types/Graph.cpp:130-135: the innermost body; && stops at
    the first false operand. *)
Definition fw_body (INF : Z) (k i : nat) (dn : mat * mat) (j : nat)
  : outcome (mat * mat) :=
  let (dist, next) := dn in
  do dik <- mget dist i k;
  if (dik <? INF)%Z then
    do dkj <- mget dist k j;
    if (dkj <? INF)%Z then
      do dij <- mget dist i j;
      do s <- add64 dik dkj;
      if (s <? dij)%Z then
        do dist' <- mset dist i j s;
        do nik <- mget next i k;
        do next' <- mset next i j nik;
        Ok (dist', next')
      else Ok dn
    else Ok dn
  else Ok dn.

(** src/fields2cover/types/Graph.cpp:127-138: Floyd-Warshall. *)
Definition floyd_warshall (INF : Z) (n : nat) (dn : mat * mat) : outcome (mat * mat) :=
  foldM (fun dn k =>
    foldM (fun dn i =>
      foldM (fw_body INF k i) (seq 0 n) dn) (seq 0 n) dn) (seq 0 n) dn.

(** src/fields2cover/types/Graph.cpp:144-147, 173-177 and 197-201: the loop
    [while (current != j) current = next[current][j]], collecting the visited
    nodes.  A negative entry becomes a huge size_t, the next access is out of
    range.  There are [length next] nodes, so a walk that has not arrived after
    that many steps has met a node twice and never ends ([Hang]). *)
Fixpoint follow (fuel : nat) (next : mat) (current j : nat) : outcome (list nat) :=
  if current =? j then Ok []
  else match fuel with
       | O => Hang
       | S fuel =>
           do z <- mget next current j;
           if (z <? 0)%Z then UB
           else do r <- follow fuel next (Z.to_nat z) j;
                Ok (Z.to_nat z :: r)
       end.

(** src/fields2cover/types/Graph.cpp:143-150: the body of "Reconstruct paths". *)
Definition reconstruct_body (INF : Z) (n : nat) (next : mat) (i : nat)
    (dist : mat) (j : nat) : outcome mat :=
  if i =? j then Ok dist
  else do z <- mget next i j;
       if (z =? -1)%Z then mset dist i j INF
       else do _ <- follow n next i j; Ok dist.

(** src/fields2cover/types/Graph.cpp:141-152. *)
Definition reconstruct_loop (INF : Z) (n : nat) (next : mat) (dist : mat) : outcome mat :=
  foldM (fun dist i =>
    foldM (reconstruct_body INF n next i) (seq 0 n) dist) (seq 0 n) dist.

(** src/fields2cover/types/Graph.cpp:110-153. *)
Definition initializeMatrices (e : edges_t) (dn : mat * mat) (INF : Z)
  : outcome (mat * mat) :=
  let n := numNodes e in
  do dn1 <- init_direct e dn;
  do dn2 <- floyd_warshall INF n dn1;
  do d <- reconstruct_loop INF n (snd dn2) (fst dn2);
  Ok (d, snd dn2).

(** src/fields2cover/types/Graph.cpp:102-107. *)
Definition shortestPathsAndCosts (e : edges_t) (INF : Z) : outcome (mat * mat) :=
  let n := numNodes e in
  initializeMatrices e (mat_const n INF, mat_const n (-1)%Z) INF.

(** src/fields2cover/types/Graph.cpp:193-206. *)
Definition reconstructPath (next : mat) (from to : nat) : outcome (list nat) :=
  if from =? to then Ok []
  else do z <- mget next from to;
       if (z =? -1)%Z then Ok []
       else do r <- follow (length next) next from to; Ok (from :: r).

(** src/fields2cover/types/Graph.cpp:167-181. *)
Definition all_shortest_paths (n : nat) (next : mat) : outcome (list (list (list nat))) :=
  foldM (fun sp i =>
    foldM (fun sp j =>
      if i =? j then Ok sp
      else do z <- mget next i j;
           if (z =? -1)%Z then Ok sp
           else do r <- follow n next i j; mset sp i j (i :: r))
      (seq 0 n) sp) (seq 0 n) (mat_const n []).

(** include/fields2cover/types/Graph.h:72-75: the data members. *)
Record graph : Type := mkGraph {
  g_edges : edges_t;
  g_paths : list (list (list nat));
  g_dist : mat;
  g_next : mat
}.

(** A default-constructed graph (include/fields2cover/types/Graph.h:26). *)
Definition graph_empty : graph := mkGraph [] [] [] [].

(** std::vector::empty() (src/fields2cover/types/Graph.cpp:15). *)
Definition is_nil {A} (l : list A) : bool := match l with [] => true | _ => false end.

(** src/fields2cover/types/Graph.cpp:13-21. *)
Definition addDirectedEdge (g : graph) (from to : nat) (cost : Z) : graph :=
  let e := edges_add (g_edges g) from to cost in
  if negb (is_nil (g_next g)) || negb (is_nil (g_dist g))
  then mkGraph e [] [] []
  else mkGraph e (g_paths g) (g_dist g) (g_next g).

(** src/fields2cover/types/Graph.cpp:23-25. *)
Definition addEdge (g : graph) (i j : nat) (cost : Z) : graph :=
  addDirectedEdge (addDirectedEdge g i j cost) j i cost.

(** src/fields2cover/types/Graph.cpp:28-34: the caches are not cleared. *)
Definition removeDirectedEdge (g : graph) (from to : nat) : graph :=
  mkGraph (edges_remove (g_edges g) from to) (g_paths g) (g_dist g) (g_next g).

(** src/fields2cover/types/Graph.cpp:35-37. *)
Definition removeEdge (g : graph) (i j : nat) : graph :=
  removeDirectedEdge (removeDirectedEdge g i j) j i.

(** src/fields2cover/types/Graph.cpp:102-107 as a change of the object. *)
Definition g_fill (g : graph) (INF : Z) : outcome graph :=
  do dn <- shortestPathsAndCosts (g_edges g) INF;
  Ok (mkGraph (g_edges g) (g_paths g) (fst dn) (snd dn)).

(** The default INF, 1e15 (include/fields2cover/types/Graph.h:45). *)
Definition INF_default : Z := 1000000000000000%Z.

(** src/fields2cover/types/Graph.cpp:155-160. *)
Definition getCosts (g : graph) : outcome (graph * mat) :=
  do g1 <- (if is_nil (g_dist g) then g_fill g INF_default else Ok g);
  Ok (g1, g_dist g1).

(** src/fields2cover/types/Graph.cpp:162-184. *)
Definition getPaths (g : graph) : outcome (graph * list (list (list nat))) :=
  do g1 <- (if is_nil (g_next g) then g_fill g INF_default else Ok g);
  if is_nil (g_paths g1) then
    do sp <- all_shortest_paths (numNodes (g_edges g1)) (g_next g1);
    Ok (mkGraph (g_edges g1) sp (g_dist g1) (g_next g1), sp)
  else Ok (g1, g_paths g1).

(** src/fields2cover/types/Graph.cpp:186-191. *)
Definition shortestPath (g : graph) (from to : nat) (INF : Z)
  : outcome (graph * list nat) :=
  do g1 <- (if (0 <? numNodes (g_edges g)) && (is_nil (g_next g) || is_nil (g_dist g))
            then g_fill g INF else Ok g);
  do p <- reconstructPath (g_next g1) from to;
  Ok (g1, p).

(** src/fields2cover/types/Graph.cpp:208-213. *)
Definition shortestPathCost (g : graph) (from to : nat) (INF : Z)
  : outcome (graph * Z) :=
  do g1 <- (if (0 <? numNodes (g_edges g)) && (length (g_dist g) =? 0)
            then g_fill g INF else Ok g);
  do c <- mget (g_dist g1) from to;
  Ok (g1, c).

Section DFS.
  (** Iteration order of an inner unordered_map (Graph.cpp:57): any enumeration
      of its keys. *)
  Variable enum : amap Z -> list nat.

  (** src/fields2cover/types/Graph.cpp:52-61. *)
  Definition getEdgesFrom (e : edges_t) (s : nat) : list nat :=
    match am_find s e with None => [] | Some m => enum m end.

  (** src/fields2cover/types/Graph.cpp:83-100.  [fuel] bounds the recursion
      depth only; the loop over the neighbours is the inner fixpoint. *)
  Fixpoint DFS (fuel : nat) (e : edges_t) (from to : nat)
      (rv : list (list nat) * list bool) (route_index : nat)
    : outcome (list (list nat) * list bool) :=
    match fuel with
    | O => Hang
    | S fuel =>
        let (routes, visited) := rv in
        do pre <- vec_index routes route_index;
        let routes1 := routes ++ [pre ++ [from]] in
        let i_route := length routes1 - 1 in
        if from =? to then Ok (routes1, visited)
        else
          do visited1 <- vec_set visited from true;
          do rv2 <- foldM (fun rv i =>
                      do b <- vec_index (snd rv) i;
                      if b : bool then Ok rv
                      else DFS fuel e i to rv i_route)
                    (getEdgesFrom e from) (routes1, visited1);
          do visited3 <- vec_set (snd rv2) from false;
          Ok (fst rv2, visited3)
    end.

  (** The erase predicate of src/fields2cover/types/Graph.cpp:77-79, negated. *)
  Definition ends_at (to : nat) (x : list nat) : bool :=
    match rev x with [] => false | y :: _ => y =? to end.

  (** src/fields2cover/types/Graph.cpp:70-81.  Every call marks one more node as
      visited, so the depth is at most numNodes() + 1. *)
  Definition allPathsBetween (e : edges_t) (from to : nat)
    : outcome (list (list nat)) :=
    let n := numNodes e in
    do rv <- DFS (S n) e from to ([[]], repeat false n) 0;
    Ok (filter (ends_at to) (fst rv)).
End DFS.

(** The member calls of the public interface that read or change the object
    (include/fields2cover/types/Graph.h:26-66), as one step of a client.
    getCosts() and getPaths() return mutable references; writing through them
    is not modelled. *)
Inductive gop : Type :=
| OAddDirected (from to : nat) (cost : Z)
| OAdd (i j : nat) (cost : Z)
| ORemoveDirected (from to : nat)
| ORemove (i j : nat)
| ORecompute (INF : Z)
| OCosts
| OPaths
| OPath (from to : nat) (INF : Z)
| OCost (from to : nat) (INF : Z).

(** One call, keeping the object and dropping the answer
    (src/fields2cover/types/Graph.cpp:13-37,102-107,155-213). *)
Definition run_op (g : graph) (o : gop) : outcome graph :=
  match o with
  | OAddDirected a b c => Ok (addDirectedEdge g a b c)
  | OAdd a b c => Ok (addEdge g a b c)
  | ORemoveDirected a b => Ok (removeDirectedEdge g a b)
  | ORemove a b => Ok (removeEdge g a b)
  | ORecompute INF => g_fill g INF
  | OCosts => do r <- getCosts g; Ok (fst r)
  | OPaths => do r <- getPaths g; Ok (fst r)
  | OPath a b INF => do r <- shortestPath g a b INF; Ok (fst r)
  | OCost a b INF => do r <- shortestPathCost g a b INF; Ok (fst r)
  end.

(** A client program on a default-constructed graph
    (include/fields2cover/types/Graph.h:24). *)
Definition run_ops (h : list gop) : outcome graph := foldM run_op h graph_empty.
