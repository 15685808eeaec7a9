(** Model of f2c::types::Route (src/fields2cover/types/Route.cpp). *)
From Coq Require Import List Arith ZArith Bool.
From Verif Require Import Outcome Swath_Model Graph_Model Graph2D_Model.
Import ListNotations.

Section Route.
  Context {P W : Type}.
  (** See Swath_Model: the default point (src/fields2cover/types/Swath.cpp:94,101),
      the width test (src/fields2cover/types/Swath.cpp:172), the zero width
      (include/fields2cover/types/Swath.h:100) and the text round trip of clone()
      (include/fields2cover/types/Geometries_impl.hpp:18-23). *)
  Variable p_default : P.
  Variable w_nonpos : W -> bool.
  Variable w_zero : W.
  Variable wkt : P -> P.
  (** Key comparison of the point graph (include/fields2cover/types/Graph2D.h:56). *)
  Variable keq : P -> P -> bool.

  Notation swath := (swath P W).

  (** include/fields2cover/types/Route.h:64-66: the two members.  A MultiPoint is
      its list of points (points with coordinates: OGR's "empty" points are left
      out, so size() is the length of the list). *)
  Record route : Type := mkRoute {
    r_swaths : list (list swath);
    r_conns : list (list P)
  }.

  (** Default-constructed Route (include/fields2cover/types/Route.h:23). *)
  Definition r_empty : route := mkRoute [] [].

  (** src/fields2cover/types/Route.cpp:142-144. *)
  Definition r_sizeVectorSwaths (r : route) : nat := length (r_swaths r).
  (** src/fields2cover/types/Route.cpp:146-148. *)
  Definition r_sizeConnections (r : route) : nat := length (r_conns r).
  (** src/fields2cover/types/Route.cpp:179-181. *)
  Definition r_isEmpty (r : route) : bool :=
    match r_swaths r, r_conns r with [], [] => true | _, _ => false end.

  (** back() = f(back()) on a vector; undefined when empty
      (src/fields2cover/types/Route.cpp:34,53,71). *)
  Definition upd_back {A} (f : A -> A) (l : list A) : outcome (list A) :=
    match rev l with [] => UB | a :: t => Ok (rev t ++ [f a]) end.

  (** src/fields2cover/types/Route.cpp:27-36. *)
  Definition r_addSwaths (r : route) (s : list swath) : outcome route :=
    let conns := if r_sizeConnections r =? 0 then r_conns r ++ [[]] else r_conns r in
    if r_sizeVectorSwaths r <? length conns then Ok (mkRoute (r_swaths r ++ [s]) conns)
    else
      do v <- upd_back (fun b => swaths_append_swaths b s) (r_swaths r);
      Ok (mkRoute v conns).

  (** src/fields2cover/types/Route.cpp:63-67. *)
  Definition r_addConnection (r : route) : route :=
    if r_sizeConnections r <=? r_sizeVectorSwaths r
    then mkRoute (r_swaths r) (r_conns r ++ [[]]) else r.

  (** src/fields2cover/types/Route.cpp:69-72. *)
  Definition r_addConnection_point (r : route) (p : P) : outcome route :=
    let r1 := r_addConnection r in
    do c <- upd_back (fun b => b ++ [p]) (r_conns r1);
    Ok (mkRoute (r_swaths r1) c).

  (** src/fields2cover/types/Route.cpp:74-81 and 82-89 (MultiPoint and
      vector<Point> overloads). *)
  Definition r_addConnection_points (r : route) (mp : list P) : outcome route :=
    let r1 := if length mp <? 1 then r_addConnection r else r in
    foldM r_addConnection_point mp r1.

  (** src/fields2cover/types/Route.cpp:38-41. *)
  Definition r_addConnectedSwaths (r : route) (mp : list P) (s : list swath) : outcome route :=
    do r1 <- r_addConnection_points r mp; r_addSwaths r1 s.

  (** src/fields2cover/types/Route.cpp:43-54. *)
  Definition r_addSwath (r : route) (s : swath) : outcome route :=
    let nc := r_sizeConnections r in
    let ns := r_sizeVectorSwaths r in
    let conns := if nc =? 0 then r_conns r ++ [[]] else r_conns r in
    let nc := if nc =? 0 then nc + 1 else nc in
    let v := if (ns <? nc) || (ns =? 0) then r_swaths r ++ [[]] else r_swaths r in
    do v' <- upd_back (fun b => b ++ [s]) v;
    Ok (mkRoute v' conns).

  (** src/fields2cover/types/MultiPoint.cpp:66-68 (getGeometry throws). *)
  Definition mp_first (mp : list P) : outcome P :=
    match mp with p :: _ => Ok p | [] => Throw OutOfRange end.
  (** src/fields2cover/types/MultiPoint.cpp:70-72. *)
  Definition mp_last (mp : list P) : outcome P :=
    match rev mp with p :: _ => Ok p | [] => Throw OutOfRange end.

  (** src/fields2cover/types/Route.cpp:123-130. *)
  Definition r_startPoint (r : route) : outcome P :=
    do c0 <- (if 0 <? r_sizeConnections r then vec_index (r_conns r) 0 else Ok []);
    if (0 <? r_sizeConnections r) && (0 <? length c0) then mp_first c0
    else
      do g0 <- (if 0 <? r_sizeVectorSwaths r then vec_index (r_swaths r) 0 else Ok []);
      if (0 <? r_sizeVectorSwaths r) && (0 <? length g0)
      then do s <- vec_index g0 0; Ok (swath_startPoint p_default s)
      else Ok p_default.

  (** src/fields2cover/types/Route.cpp:132-140. *)
  Definition r_endPoint (r : route) : outcome P :=
    let nc := r_sizeConnections r in
    let ns := r_sizeVectorSwaths r in
    do c <- (if ns <? nc then vec_back (r_conns r) else Ok []);
    if (ns <? nc) && (0 <? length c) then mp_last c
    else
      do g <- (if 0 <? ns then vec_back (r_swaths r) else Ok []);
      if (0 <? ns) && (0 <? length g)
      then do s <- vec_back g; Ok (swath_endPoint p_default s)
      else Ok p_default.

  (** src/fields2cover/types/Route.cpp:164-173, the loop over the swath groups
      from index [i] on. *)
  Fixpoint r_line_from (conns : list (list P)) (i : nat) (v : list (list swath)) : outcome (list P) :=
    match v with
    | [] => Ok []
    | g :: v =>
      let pts := flat_map sw_path g in
      do c <- (if i + 1 <? length conns then vec_index conns (i + 1) else Ok []);
      do rest <- r_line_from conns (i + 1) v;
      Ok (pts ++ c ++ rest)
    end.

  (** src/fields2cover/types/Route.cpp:154-177. *)
  Definition r_asLineString (r : route) : outcome (list P) :=
    if r_isEmpty r then Ok []
    else
      do c0 <- (if 0 <? length (r_conns r) then vec_index (r_conns r) 0 else Ok []);
      do rest <- r_line_from (r_conns r) 0 (r_swaths r);
      Ok (c0 ++ rest).

  (** src/fields2cover/types/Route.cpp:56-61; shortestPath is called with its
      default INF (include/fields2cover/types/Graph2D.h:50) and may fill the
      graph's cache. *)
  Definition r_addSwath_graph (r : route) (s : swath) (g : graph2d P)
    : outcome (route * graph2d P) :=
    if r_isEmpty r then do r' <- r_addSwath r s; Ok (r', g)
    else
      do e <- r_endPoint r;
      do q <- g2_shortestPath keq g e (swath_startPoint p_default s) g2_INF;
      do r1 <- r_addConnection_points r (snd q);
      do r' <- r_addSwath r1 s;
      Ok (r', fst q).

  (** src/fields2cover/types/Route.cpp:15-21: operator[] accesses. *)
  Definition r_getSwaths (r : route) (i : nat) : outcome (list swath) := vec_index (r_swaths r) i.
  (** src/fields2cover/types/Route.cpp:23-25. *)
  Definition r_setSwaths (r : route) (i : nat) (s : list swath) : outcome route :=
    do v <- vec_set (r_swaths r) i s; Ok (mkRoute v (r_conns r)).
  (** src/fields2cover/types/Route.cpp:111-117. *)
  Definition r_getConnection (r : route) (i : nat) : outcome (list P) := vec_index (r_conns r) i.
  (** src/fields2cover/types/Route.cpp:119-121. *)
  Definition r_setConnection (r : route) (i : nat) (mp : list P) : outcome route :=
    do c <- vec_set (r_conns r) i mp; Ok (mkRoute (r_swaths r) c).
  (** src/fields2cover/types/Route.cpp:91-97. *)
  Definition r_getLastConnection (r : route) : outcome (list P) := vec_back (r_conns r).
  (** src/fields2cover/types/Route.cpp:99-105. *)
  Definition r_getLastSwaths (r : route) : outcome (list swath) := vec_back (r_swaths r).

  (** src/fields2cover/types/Route.cpp:183-192. *)
  Definition r_clone (r : route) : outcome route :=
    do v <- mapM (swaths_clone w_nonpos w_zero wkt) (r_swaths r);
    Ok (mkRoute v (map (map wkt) (r_conns r))).

  (** Client calls that build a route (include/fields2cover/types/Route.h:30-39). *)
  Inductive rop : Type :=
  | RAddSwaths (s : list swath)
  | RAddConnectedSwaths (mp : list P) (s : list swath)
  | RAddSwath (s : swath)
  | RAddConnection
  | RAddPoint (p : P)
  | RAddPoints (mp : list P).

  (** One client call (src/fields2cover/types/Route.cpp:27-89). *)
  Definition r_run_op (r : route) (o : rop) : outcome route :=
    match o with
    | RAddSwaths s => r_addSwaths r s
    | RAddConnectedSwaths mp s => r_addConnectedSwaths r mp s
    | RAddSwath s => r_addSwath r s
    | RAddConnection => Ok (r_addConnection r)
    | RAddPoint p => r_addConnection_point r p
    | RAddPoints mp => r_addConnection_points r mp
    end.

  (** A sequence of client calls on a new route (include/fields2cover/types/Route.h:23). *)
  Definition r_run (h : list rop) : outcome route := foldM r_run_op h r_empty.
End Route.
Arguments route : clear implicits.
Arguments rop : clear implicits.
