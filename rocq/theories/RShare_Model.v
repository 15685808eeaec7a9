(** Model of routes that share their connections.

    A Route has a vector of MultiPoint (include/fields2cover/types/Route.h:64-67), and a
    MultiPoint holds a std::shared_ptr to its OGR object
    (include/fields2cover/types/Geometry.h, member data_).  Copies of a Route, setConnection
    (src/fields2cover/types/Route.cpp:119-121) and copies of getConnection(i) (111-117) point to
    the same objects, while addConnection changes the last one in place (69-72).  Here the
    objects are in a heap, and a route holds addresses.  Swaths are values here; how they
    share their lines is modelled in Alias_Model.v.

    Route_Model.v models a route together with its points.  This file tells when that is
    right.  *)
From Coq Require Import List Arith Bool.
From Verif Require Import Outcome Swath_Model Route_Model Parts_Model.
Import ListNotations.
Local Open Scope nat_scope.

Section RShare.
  Context {P W : Type}.
  (** As in Route_Model.v, for clone(): the width test (src/fields2cover/types/Swath.cpp:172), the
      zero width (include/fields2cover/types/Swath.h:100) and the text round trip
      (include/fields2cover/types/Geometries_impl.hpp:18-23). *)
  Variable w_nonpos : W -> bool.
  Variable w_zero : W.
  Variable wkt : P -> P.
  (** The capacity of connections_ when emplace_back has made room next to [n] elements
      (src/fields2cover/types/Route.cpp:29,65), and when it is a copy of [n] elements
      (include/fields2cover/types/Route.h:64-67).  The standard leaves both open. *)
  Variable grow : nat -> nat.
  Variable fit : nat -> nat.

  (** The members of include/fields2cover/types/Route.h:64-67: the connections by their
      addresses, with the capacity of the vector. *)
  Record hroute := mkHR { hr_swaths : list (list (swath P W)); hr_conns : list nat; hr_cap : nat }.

  (** The objects and the variables of a program: [st_heap] has the OGR objects, [st_pts]
      what the MultiPoint variables point to
      (include/fields2cover/types/Geometry.h, member data_), [st_route] the Route variables
      (include/fields2cover/types/Route.h:64-67).  Objects that nothing points to are left in
      the heap, where nobody can see them. *)
  Record state := mkState { st_heap : list (list P); st_pts : list nat; st_route : list hroute }.

  (** Reading through data_ (include/fields2cover/types/Geometry_impl.hpp:64-69). *)
  Definition deref (h : list (list P)) (a : nat) : list P := nth a h [].

  (** A route with the points it points to (include/fields2cover/types/Route.h:64-67). *)
  Definition hr_value (h : list (list P)) (r : hroute) : route P W :=
    mkRoute (hr_swaths r) (map (deref h) (hr_conns r)).

  (** MultiPoint::addPoint (src/fields2cover/types/MultiPoint.cpp:87-89,97-100) on the object at
      [a], in place. *)
  Definition h_addPoint (h : list (list P)) (a : nat) (p : P) : list (list P) := assign h a (deref h a ++ [p]).

  (** connections_.emplace_back() (src/fields2cover/types/Route.cpp:29,47,65): a new, empty
      object; the vector moves when it is full. *)
  Definition h_emplace (h : list (list P)) (r : hroute) : list (list P) * hroute :=
    (h ++ [[]],
     mkHR (hr_swaths r) (hr_conns r ++ [length h])
       (if hr_cap r <=? length (hr_conns r) then grow (length (hr_conns r)) else hr_cap r)).

  (** Route::addConnection() (src/fields2cover/types/Route.cpp:63-67). *)
  Definition h_addConnection (h : list (list P)) (r : hroute) : list (list P) * hroute :=
    if length (hr_conns r) <=? length (hr_swaths r) then h_emplace h r else (h, r).

  (** Route::addConnection(p) (src/fields2cover/types/Route.cpp:69-72); back() of an empty vector is
      undefined. *)
  Definition h_addConnection_point (hr : list (list P) * hroute) (p : P) : outcome (list (list P) * hroute) :=
    let (h, r) := h_addConnection (fst hr) (snd hr) in
    do a <- vec_back (hr_conns r);
    Ok (h_addPoint h a p, r).

  (** Route::addConnection(mp) (src/fields2cover/types/Route.cpp:74-81), where mp points to the
      object at [b].  The loop runs over the points that were there at its beginning
      (include/fields2cover/types/Geometries_impl.hpp:163-167), and reads each of them when it
      gets there (117-124). *)
  Definition h_addConnection_points (h : list (list P)) (r : hroute) (b : nat) : outcome (list (list P) * hroute) :=
    let n := length (deref h b) in
    let hr := if n <? 1 then h_addConnection h r else (h, r) in
    foldM (fun hr k => do p <- vec_at (deref (fst hr) b) k; h_addConnection_point hr p)
      (seq 0 n) hr.

  (** Route::addConnection(vp) for a vector of points (src/fields2cover/types/Route.cpp:82-89). *)
  Definition h_addConnection_vec (h : list (list P)) (r : hroute) (l : list P) : outcome (list (list P) * hroute) :=
    let hr := if length l <? 1 then h_addConnection h r else (h, r) in
    foldM h_addConnection_point l hr.

  (** Route::addConnection(mp) (src/fields2cover/types/Route.cpp:74-81) where mp is a reference to an
      element of connections_ itself, as in r.addConnection(r.getConnection(i)).  When a
      connection is added and the vector moves, mp is a dangling reference.  It is used
      after that when mp has no point, since the loop then asks for its end (line 78), and
      when it has two or more, since the iterator then reads it
      (include/fields2cover/types/Geometries_impl.hpp:117-124); with one point it is not. *)
  Definition h_addConnection_own (h : list (list P)) (r : hroute) (i : nat) : outcome (list (list P) * hroute) :=
    do b <- vec_index (hr_conns r) i;
    let moves := (length (hr_conns r) <=? length (hr_swaths r)) && (hr_cap r <=? length (hr_conns r)) in
    if moves && negb (length (deref h b) =? 1) then UB
    else h_addConnection_points h r b.

  (** Route::addSwaths (src/fields2cover/types/Route.cpp:27-36). *)
  Definition h_addSwaths (h : list (list P)) (r : hroute) (s : list (swath P W)) : outcome (list (list P) * hroute) :=
    let (h1, r1) := if length (hr_conns r) =? 0 then h_emplace h r else (h, r) in
    if length (hr_swaths r1) <? length (hr_conns r1)
    then Ok (h1, mkHR (hr_swaths r1 ++ [s]) (hr_conns r1) (hr_cap r1))
    else
      do v <- upd_back (fun b => swaths_append_swaths b s) (hr_swaths r1);
      Ok (h1, mkHR v (hr_conns r1) (hr_cap r1)).

  (** Route::addSwath (src/fields2cover/types/Route.cpp:43-54). *)
  Definition h_addSwath (h : list (list P)) (r : hroute) (s : swath P W) : outcome (list (list P) * hroute) :=
    let ns := length (hr_swaths r) in
    let (h1, r1) := if length (hr_conns r) =? 0 then h_emplace h r else (h, r) in
    let v := if (ns <? length (hr_conns r1)) || (ns =? 0) then hr_swaths r1 ++ [[]] else hr_swaths r1 in
    do v' <- upd_back (fun b => b ++ [s]) v;
    Ok (h1, mkHR v' (hr_conns r1) (hr_cap r1)).

  (** Route::clone (src/fields2cover/types/Route.cpp:183-192): every connection is cloned into a new
      object. *)
  Definition h_clone (h : list (list P)) (r : hroute) : outcome (list (list P) * hroute) :=
    do v <- mapM (swaths_clone w_nonpos w_zero wkt) (hr_swaths r);
    Ok (h ++ map (fun a => map wkt (deref h a)) (hr_conns r),
        mkHR v (seq (length h) (length (hr_conns r))) (fit (length (hr_conns r)))).

  (** The statements of a program on MultiPoint and Route variables:
      - x = MultiPoint with these points (src/fields2cover/types/MultiPoint.cpp:18-22), y = x
        (include/fields2cover/types/Geometry_impl.hpp:51,60-62), x.addPoint(p) (MultiPoint.cpp:87-89)
      - r = Route(), s = r (include/fields2cover/types/Route.h:23), s = r.clone()
        (src/fields2cover/types/Route.cpp:183-192)
      - x = r.getConnection(i) (111-117), r.setConnection(i, x) (119-121),
        r.getConnection(i).addPoint(p) (111-113)
      - r.addConnection(), (p), (x), (vector of points), (r.getConnection(i)) (63-89)
      - r.addSwath(s), r.addSwaths(l) (27-54), r.setSwaths(i, l) (23-25). *)
  Inductive op : Type :=
  | NewPoints (x : nat) (l : list P)
  | CopyPoints (x y : nat)
  | AddPoint (x : nat) (p : P)
  | NewRoute (r : nat)
  | CopyRoute (r s : nat)
  | CloneRoute (r s : nat)
  | GetConn (r i x : nat)
  | SetConn (r i x : nat)
  | EditConn (r i : nat) (p : P)
  | AddConn (r : nat)
  | AddConnPoint (r : nat) (p : P)
  | AddConnPoints (r x : nat)
  | AddConnVec (r : nat) (l : list P)
  | AddConnOwn (r i : nat)
  | AddSwath (r : nat) (s : swath P W)
  | AddSwaths (r : nat) (l : list (swath P W))
  | SetSwaths (r i : nat) (l : list (swath P W)).

  (** The objects and the route that a function leaves (src/fields2cover/types/Route.cpp:27-89). *)
  Definition put (st : state) (r : nat) (hr : list (list P) * hroute) : state :=
    mkState (fst hr) (st_pts st) (assign (st_route st) r (snd hr)).

  (** A statement; the lines are given at [op] (src/fields2cover/types/Route.cpp:15-192).
      operator[] out of range is undefined. *)
  Definition step (st : state) (o : op) : outcome state :=
    let h := st_heap st in
    let xs := st_pts st in
    let rs := st_route st in
    match o with
    | NewPoints x l => do _ <- var xs x; Ok (mkState (h ++ [l]) (assign xs x (length h)) rs)
    | CopyPoints x y => do a <- var xs x; do _ <- var xs y; Ok (mkState h (assign xs y a) rs)
    | AddPoint x p => do a <- var xs x; Ok (mkState (h_addPoint h a p) xs rs)
    | NewRoute r => do _ <- var rs r; Ok (put st r (h, mkHR [] [] 0))
    | CopyRoute r s =>
        do v <- var rs r; do _ <- var rs s;
        Ok (put st s (h, mkHR (hr_swaths v) (hr_conns v) (fit (length (hr_conns v)))))
    | CloneRoute r s => do v <- var rs r; do _ <- var rs s; do hv <- h_clone h v; Ok (put st s hv)
    | GetConn r i x =>
        do v <- var rs r; do _ <- var xs x; do a <- vec_index (hr_conns v) i;
        Ok (mkState h (assign xs x a) rs)
    | SetConn r i x =>
        do v <- var rs r; do a <- var xs x; do c <- vec_set (hr_conns v) i a;
        Ok (put st r (h, mkHR (hr_swaths v) c (hr_cap v)))
    | EditConn r i p =>
        do v <- var rs r; do a <- vec_index (hr_conns v) i; Ok (mkState (h_addPoint h a p) xs rs)
    | AddConn r => do v <- var rs r; Ok (put st r (h_addConnection h v))
    | AddConnPoint r p => do v <- var rs r; do hv <- h_addConnection_point (h, v) p; Ok (put st r hv)
    | AddConnPoints r x =>
        do v <- var rs r; do b <- var xs x; do hv <- h_addConnection_points h v b; Ok (put st r hv)
    | AddConnVec r l => do v <- var rs r; do hv <- h_addConnection_vec h v l; Ok (put st r hv)
    | AddConnOwn r i => do v <- var rs r; do hv <- h_addConnection_own h v i; Ok (put st r hv)
    | AddSwath r s => do v <- var rs r; do hv <- h_addSwath h v s; Ok (put st r hv)
    | AddSwaths r l => do v <- var rs r; do hv <- h_addSwaths h v l; Ok (put st r hv)
    | SetSwaths r i l =>
        do v <- var rs r; do w <- vec_set (hr_swaths v) i l;
        Ok (put st r (h, mkHR w (hr_conns v) (hr_cap v)))
    end.

  (** A program (src/fields2cover/types/Route.cpp:27-192). *)
  Definition run (ops : list op) (st : state) : outcome state := foldM step ops st.

  (** Variables that start empty: the MultiPoint variables with an object each
      (src/fields2cover/types/MultiPoint.cpp:11-16), the routes with none
      (include/fields2cover/types/Route.h:23). *)
  Definition st_init (nx nr : nat) : state :=
    mkState (repeat [] nx) (seq 0 nx) (repeat (mkHR [] [] 0) nr).
End RShare.
Arguments op : clear implicits.
Arguments hroute : clear implicits.
Arguments state : clear implicits.
