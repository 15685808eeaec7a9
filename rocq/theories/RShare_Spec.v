(** Specification vocabulary for routes that share their connections: what a program would
    do if every variable held its own points, which variables share an object, and what a
    statement writes in place.  *)
From Coq Require Import List Arith Bool.
From Verif Require Import Outcome Swath_Model Route_Model Parts_Spec RShare_Model.
Import ListNotations.
Local Open Scope nat_scope.

Section Spec.
  Context {P W : Type}.
  Variable w_nonpos : W -> bool.
  Variable w_zero : W.
  Variable wkt : P -> P.
  Variables grow fit : nat -> nat.
  Notation state := (state P W).
  Notation op := (op P W).

  (** Variables that hold values: a route together with its points. *)
  Record vstate := mkV { v_pts : list (list P); v_route : list (route P W) }.

  (** A declared variable, and giving it a value. *)
  Definition read {B} (l : list B) (x : nat) : outcome B :=
    match nth_error l x with Some b => Ok b | None => Throw OutOfRange end.
  Definition set_pts (v : vstate) (x : nat) (c : list P) : outcome vstate :=
    do _ <- read (v_pts v) x; Ok (mkV (replaced (v_pts v) x c) (v_route v)).
  Definition set_route (v : vstate) (r : nat) (a : route P W) : outcome vstate :=
    do _ <- read (v_route v) r; Ok (mkV (v_pts v) (replaced (v_route v) r a)).

  (** A copy is a new value, whatever it is copied from; the functions are those of
      Route_Model.v, which know nothing of sharing. *)
  Definition vstep (v : vstate) (o : op) : outcome vstate :=
    let xs := v_pts v in
    let rs := v_route v in
    match o with
    | NewPoints x l => set_pts v x l
    | CopyPoints x y => do c <- read xs x; set_pts v y c
    | AddPoint x p => do c <- read xs x; set_pts v x (c ++ [p])
    | NewRoute r => set_route v r (mkRoute [] [])
    | CopyRoute r s => do a <- read rs r; set_route v s a
    | CloneRoute r s => do a <- read rs r; do _ <- read rs s; do b <- r_clone w_nonpos w_zero wkt a; set_route v s b
    | GetConn r i x => do a <- read rs r; do _ <- read xs x; do c <- r_getConnection a i; set_pts v x c
    | SetConn r i x => do a <- read rs r; do c <- read xs x; do b <- r_setConnection a i c; set_route v r b
    | EditConn r i p => do a <- read rs r; do c <- r_getConnection a i; do b <- r_setConnection a i (c ++ [p]); set_route v r b
    | AddConn r => do a <- read rs r; set_route v r (r_addConnection a)
    | AddConnPoint r p => do a <- read rs r; do b <- r_addConnection_point a p; set_route v r b
    | AddConnPoints r x => do a <- read rs r; do c <- read xs x; do b <- r_addConnection_points a c; set_route v r b
    | AddConnVec r l => do a <- read rs r; do b <- r_addConnection_points a l; set_route v r b
    | AddConnOwn r i => do a <- read rs r; do c <- r_getConnection a i; do b <- r_addConnection_points a c; set_route v r b
    | AddSwath r s => do a <- read rs r; do b <- r_addSwath a s; set_route v r b
    | AddSwaths r l => do a <- read rs r; do b <- r_addSwaths a l; set_route v r b
    | SetSwaths r i l => do a <- read rs r; do b <- r_setSwaths a i l; set_route v r b
    end.
  Definition vrun (ops : list op) (v : vstate) : outcome vstate := foldM vstep ops v.

  (** What the variables of a state show. *)
  Definition views (st : state) : vstate :=
    mkV (map (fun a => nth a (st_heap st) []) (st_pts st))
        (map (fun r => mkRoute (hr_swaths r) (map (fun a => nth a (st_heap st) []) (hr_conns r))) (st_route st)).

  (** Every address is one of the heap, and no route has more groups of swaths than
      connections. *)
  Definition well_formed (st : state) : Prop :=
    Forall (fun a => a < length (st_heap st)) (st_pts st) /\
    Forall (fun r => Forall (fun a => a < length (st_heap st)) (hr_conns r) /\
                     length (hr_swaths r) <= length (hr_conns r)) (st_route st).

  (** Where an address can be: in a MultiPoint variable or as a connection of a route. *)
  Inductive place := InPts (x : nat) | InConn (r i : nat).
  Definition holds (st : state) (p : place) (a : nat) : Prop :=
    match p with
    | InPts x => nth_error (st_pts st) x = Some a
    | InConn r i => exists v, nth_error (st_route st) r = Some v /\ nth_error (hr_conns v) i = Some a
    end.
  (** The points that are shown there. *)
  Definition points_at (v : vstate) (p : place) : option (list P) :=
    match p with
    | InPts x => nth_error (v_pts v) x
    | InConn r i => match nth_error (v_route v) r with Some a => nth_error (r_conns a) i | None => None end
    end.
  Definition same_object (st : state) (p q : place) : Prop := exists a, holds st p a /\ holds st q a.
  (** Nothing else points to the object of [p]. *)
  Definition unshared (st : state) (p : place) : Prop := forall q, same_object st p q -> q = p.

  (** A route that ends with a connection, so that addConnection() adds none. *)
  Definition open_end (st : state) (r i : nat) : Prop :=
    exists v, nth_error (st_route st) r = Some v /\
      length (hr_swaths v) < length (hr_conns v) /\ S i = length (hr_conns v).
  (** Statements that add the points [l] to the route [r]. *)
  Definition adds (st : state) (o : op) (r : nat) (l : list P) : Prop :=
    match o with
    | AddConnPoint s p => s = r /\ l = [p]
    | AddConnVec s m => s = r /\ l = m
    | AddConnPoints s x => s = r /\ exists a, holds st (InPts x) a /\ l = nth a (st_heap st) []
    | AddConnOwn s i => s = r /\ exists a, holds st (InConn r i) a /\ l = nth a (st_heap st) []
    | _ => False
    end.
  (** A statement that adds the points [l] in place to the object of [p]. *)
  Definition writes (st : state) (o : op) (p : place) (l : list P) : Prop :=
    match p with
    | InPts x => exists q, o = AddPoint x q /\ l = [q]
    | InConn r i => (exists q, o = EditConn r i q /\ l = [q]) \/ (adds st o r l /\ open_end st r i)
    end.

  (** r.addConnection(r.getConnection(i)) where the vector of connections has to move and
      the connection has not exactly one point. *)
  Definition dangles (st : state) (o : op) : Prop :=
    match o with
    | AddConnOwn r i =>
        exists v a, nth_error (st_route st) r = Some v /\ nth_error (hr_conns v) i = Some a /\
          length (hr_conns v) <= length (hr_swaths v) /\ hr_cap v <= length (hr_conns v) /\
          length (nth a (st_heap st) []) <> 1
    | _ => False
    end.

  (** A program that writes in place only where a single variable points to, and passes no
      dangling reference. *)
  Fixpoint careful (st : state) (ops : list op) : Prop :=
    match ops with
    | [] => True
    | o :: t =>
        (forall p l, writes st o p l -> l <> [] -> unshared st p) /\ ~ dangles st o /\
        (forall st', step w_nonpos w_zero wkt grow fit st o = Ok st' -> careful st' t)
    end.

  (** Statements that make two variables point to one object, or pass a reference to a part
      of the route itself. *)
  Definition shares (o : op) : bool :=
    match o with CopyPoints _ _ | CopyRoute _ _ | GetConn _ _ _ | SetConn _ _ _ | AddConnOwn _ _ => true | _ => false end.

  (** The variables, and those that a statement names. *)
  Inductive variable := VPts (x : nat) | VRoute (r : nat).
  Definition of_place (p : place) : variable := match p with InPts x => VPts x | InConn r _ => VRoute r end.
  Definition names (o : op) (p : variable) : Prop :=
    match o, p with
    | NewPoints y _, VPts x | AddPoint y _, VPts x | GetConn _ _ y, VPts x | SetConn _ _ y, VPts x
    | AddConnPoints _ y, VPts x => x = y
    | CopyPoints y z, VPts x => x = y \/ x = z
    | NewRoute s, VRoute r | GetConn s _ _, VRoute r | SetConn s _ _, VRoute r | EditConn s _ _, VRoute r
    | AddConn s, VRoute r | AddConnPoint s _, VRoute r | AddConnPoints s _, VRoute r | AddConnVec s _, VRoute r
    | AddConnOwn s _, VRoute r | AddSwath s _, VRoute r | AddSwaths s _, VRoute r | SetSwaths s _ _, VRoute r => r = s
    | CopyRoute s t, VRoute r | CloneRoute s t, VRoute r => r = s \/ r = t
    | _, _ => False
    end.
  (** No variable of the group [G] shares an object with one outside. *)
  Definition apart (G : variable -> Prop) (st : state) : Prop :=
    forall p q, G (of_place p) -> ~ G (of_place q) -> ~ same_object st p q.
  (** Two states in which the variables outside [G] show the same. *)
  Definition same_outside (G : variable -> Prop) (v v' : vstate) : Prop :=
    (forall x, ~ G (VPts x) -> nth_error (v_pts v') x = nth_error (v_pts v) x) /\
    (forall r, ~ G (VRoute r) -> nth_error (v_route v') r = nth_error (v_route v) r).
End Spec.
