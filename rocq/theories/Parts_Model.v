(** Model of how long the parts of a collection live.

    A Cells, MultiLineString or Cell holds a std::shared_ptr to an OGR object
    (include/fields2cover/types/Geometry.h, member data_) that owns its parts:
    polygons, lines or rings.  A part can be taken out in two ways.  getGeometry(i)
    clones it.  getGeometry(i, part), the iterators and getCellWherePoint make a
    handle with an empty destructor (include/fields2cover/types/Geometry_impl.hpp:32-33,39-41):
    it points into the collection and does not keep it alive.  Here the objects are in
    a heap, and it is recorded which of them still have an owner.  *)
From Coq Require Import List Arith Bool.
From Verif Require Import Outcome Container_Model.
Import ListNotations.
Local Open Scope nat_scope.

Section Parts.
  Context {A : Type}.

  (** IsEmpty of a part (include/fields2cover/types/Geometry_impl.hpp:221-224), the
      default part (src/fields2cover/types/Cells.cpp:106, Cell.cpp:83,
      MultiLineString.cpp:114), what addGeometry stores of a part: the part itself
      (Cells.cpp:126-128, MultiLineString.cpp:120-122) or its closed clone
      (Cell.cpp:123-130), and what clone() makes of a part
      (include/fields2cover/types/Geometries_impl.hpp:18-23). *)
  Variable isEmpty : A -> bool.
  Variable dflt : A.
  Variable put : A -> A.
  Variable wkt : A -> A.

  (** An OGR collection: its parts in order, each with its address.  OGR keeps
      pointers to the parts, so that adding one does not move the others
      (src/fields2cover/types/Cells.cpp:126-128). *)
  Notation kids := (list (nat * A)).

  (** What data_ of a part points to: an object of its own
      (include/fields2cover/types/Geometry_impl.hpp:43-45), given by its number, or a part
      inside a collection, given by its address (Geometry_impl.hpp:32-33,39-41). *)
  Inductive part_ref : Type := Own (b : nat) | Borrow (c : nat).

  (** The objects and the variables of a program (include/fields2cover/types/Geometry.h,
      member data_): [st_heap] has the collections, [st_solo] the parts that are objects of
      their own, [st_coll] what the variables of collections point to, [st_part] what the
      variables of parts point to, [st_fresh] is an address not used so far. *)
  Record state := mkState {
    st_heap : list kids;
    st_solo : list A;
    st_fresh : nat;
    st_coll : list nat;
    st_part : list part_ref
  }.

  (** A variable.  A program that uses an undeclared one does not compile; here it
      stops (include/fields2cover/types/Geometry.h, member data_). *)
  Definition var {B} (l : list B) (x : nat) : outcome B := vec_at l x.
  (** Assignment to a variable: the default operator= of
      include/fields2cover/types/Geometry_impl.hpp:56-62. *)
  Fixpoint assign {B} (l : list B) (x : nat) (b : B) : list B :=
    match l, x with
    | [], _ => []
    | _ :: l, 0 => b :: l
    | a :: l, S x => a :: assign l x b
    end.

  (** The parts of a collection (include/fields2cover/types/Geometry_impl.hpp:64-69). *)
  Definition parts_of (st : state) (a : nat) : kids := nth a (st_heap st) [].

  (** The parts that exist: those of the collections some variable points to.  The others
      were destroyed with the last shared_ptr to their collection
      (include/fields2cover/types/Geometry_impl.hpp:21-23). *)
  Definition living (st : state) : kids := flat_map (parts_of st) (st_coll st).

  (** The part with an address (include/fields2cover/types/Geometry_impl.hpp:64-69). *)
  Definition at_address (c : nat) (l : kids) : option A :=
    option_map snd (find (fun k => fst k =? c) l).

  (** Reading through data_ (include/fields2cover/types/Geometry_impl.hpp:64-74):
      undefined when the part does not exist any more. *)
  Definition read_ref (st : state) (r : part_ref) : outcome A :=
    match r with
    | Own b => vec_index (st_solo st) b
    | Borrow c => match at_address c (living st) with Some v => Ok v | None => UB end
    end.

  (** Writing to a part at an address (include/fields2cover/types/Geometry_impl.hpp:64-66). *)
  Definition write_kid (c : nat) (v : A) (l : kids) : kids :=
    map (fun k => if fst k =? c then (c, v) else k) l.

  (** Writing through data_ (include/fields2cover/types/Geometry_impl.hpp:64-66). *)
  Definition write_ref (st : state) (r : part_ref) (v : A) : outcome state :=
    do _ <- read_ref st r;
    Ok match r with
       | Own b => mkState (st_heap st) (assign (st_solo st) b v) (st_fresh st) (st_coll st) (st_part st)
       | Borrow c => mkState (map (write_kid c v) (st_heap st)) (st_solo st) (st_fresh st) (st_coll st) (st_part st)
       end.

  (** A new collection with new parts, for the variable [x]
      (include/fields2cover/types/Geometry_impl.hpp:20-23). *)
  Definition new_coll (st : state) (x : nat) (l : list A) : state :=
    mkState (st_heap st ++ [combine (seq (st_fresh st) (length l)) l]) (st_solo st)
      (st_fresh st + length l) (assign (st_coll st) x (length (st_heap st))) (st_part st).

  (** A new part of its own, for the variable [p]
      (include/fields2cover/types/Geometry_impl.hpp:43-45). *)
  Definition new_part (st : state) (p : nat) (v : A) : state :=
    mkState (st_heap st) (st_solo st ++ [v]) (st_fresh st) (st_coll st)
      (assign (st_part st) p (Own (length (st_solo st)))).

  (** New parts at the end of a collection: addGeometry of OGR clones them
      (src/fields2cover/types/Cells.cpp:126-128). *)
  Definition grow (st : state) (a : nat) (l : list A) : state :=
    mkState (assign (st_heap st) a (parts_of st a ++ combine (seq (st_fresh st) (length l)) l))
      (st_solo st) (st_fresh st + length l) (st_coll st) (st_part st).

  (** The handle to the i-th part: getGeometry(i, part) of src/fields2cover/types/Cells.cpp:63-77,
      MultiLineString.cpp:71-85 and Cell.cpp:35-54. *)
  Definition borrow (st : state) (a i : nat) : outcome part_ref :=
    if coll_size isEmpty (map snd (parts_of st a)) <=? i then Throw OutOfRange
    else do k <- vec_index (parts_of st a) i; Ok (Borrow (fst k)).

  (** One statement of a program on the functions of src/fields2cover/types/Cells.cpp:63-128,228-235,
      MultiLineString.cpp:71-122, Cell.cpp:35-130 and include/fields2cover/types/Geometry_impl.hpp. *)
  Inductive op : Type :=
  | NewColl (x : nat)                    (* x = Cells(); *)
  | CopyColl (x y : nat)                 (* y = x; *)
  | CloneColl (x y : nat)                (* y = x.clone(); *)
  | Import (x : nat) (l : list A)        (* x.importFromWkt(text of l); *)
  | AddPart (x p : nat)                  (* x.addGeometry(p); *)
  | SetPart (x i p : nat)                (* x.setGeometry(i, p); *)
  | GetPart (x i p : nat)                (* p = x.getGeometry(i); *)
  | RefPart (x i p : nat)                (* x.getGeometry(i, p);  for (auto&& c : x) p = c; *)
  | WherePart (x : nat) (f : A -> bool) (p : nat)
                                         (* p = x.getCellWherePoint(point); *)
  | NewPart (p : nat) (v : A)            (* p = Cell(...); *)
  | CopyPart (p q : nat)                 (* q = p; *)
  | ClonePart (p q : nat)                (* q = p.clone(); *)
  | Change (p : nat) (f : A -> A).       (* p *= b;  p.addRing(r); *)

  (** The effect of a statement (src/fields2cover/types/Cells.cpp:63-128,228-235,
      MultiLineString.cpp:71-122, Cell.cpp:35-130; clone is
      include/fields2cover/types/Geometries_impl.hpp:18-23, importFromWkt is
      Geometry_impl.hpp:259-263: OGR deletes the parts and reads new ones). *)
  Definition step (st : state) (o : op) : outcome state :=
    match o with
    | NewColl x => do _ <- var (st_coll st) x; Ok (new_coll st x [])
    | CopyColl x y =>
        do a <- var (st_coll st) x;
        do _ <- var (st_coll st) y;
        Ok (mkState (st_heap st) (st_solo st) (st_fresh st) (assign (st_coll st) y a) (st_part st))
    | CloneColl x y =>
        do a <- var (st_coll st) x;
        do _ <- var (st_coll st) y;
        Ok (new_coll st y (map wkt (map snd (parts_of st a))))
    | Import x l =>
        do a <- var (st_coll st) x;
        Ok (mkState (assign (st_heap st) a (combine (seq (st_fresh st) (length l)) l)) (st_solo st)
              (st_fresh st + length l) (st_coll st) (st_part st))
    | AddPart x p =>
        do a <- var (st_coll st) x;
        do r <- var (st_part st) p;
        do v <- read_ref st r;
        Ok (grow st a [put v])
    | SetPart x i p =>
        do a <- var (st_coll st) x;
        do r <- var (st_part st) p;
        let l := map snd (parts_of st a) in
        let n := coll_size isEmpty l in
        if i <? n then
          do l' <- foldM (fun acc j =>
                     do g <- (if i =? j then read_ref st r else coll_getGeometry isEmpty l j);
                     Ok (acc ++ [put g])) (seq 0 n) [];
          Ok (new_coll st x l')
        else
          do v <- read_ref st r;
          Ok (grow st a (repeat (put dflt) (i - n) ++ [put v]))
    | GetPart x i p =>
        do a <- var (st_coll st) x;
        do _ <- var (st_part st) p;
        do v <- coll_getGeometry isEmpty (map snd (parts_of st a)) i;
        Ok (new_part st p v)
    | RefPart x i p =>
        do a <- var (st_coll st) x;
        do _ <- var (st_part st) p;
        do r <- borrow st a i;
        Ok (mkState (st_heap st) (st_solo st) (st_fresh st) (st_coll st) (assign (st_part st) p r))
    | WherePart x f p =>
        do a <- var (st_coll st) x;
        do _ <- var (st_part st) p;
        let l := parts_of st a in
        let n := coll_size isEmpty (map snd l) in
        match find (fun k => f (snd k)) (firstn n l) with
        | Some k =>
            Ok (mkState (st_heap st) (st_solo st) (st_fresh st) (st_coll st)
                  (assign (st_part st) p (Borrow (fst k))))
        | None => Ok (new_part st p dflt)
        end
    | NewPart p v => do _ <- var (st_part st) p; Ok (new_part st p v)
    | CopyPart p q =>
        do r <- var (st_part st) p;
        do _ <- var (st_part st) q;
        Ok (mkState (st_heap st) (st_solo st) (st_fresh st) (st_coll st) (assign (st_part st) q r))
    | ClonePart p q =>
        do r <- var (st_part st) p;
        do _ <- var (st_part st) q;
        do v <- read_ref st r;
        Ok (new_part st q (wkt v))
    | Change p f =>
        do r <- var (st_part st) p;
        do v <- read_ref st r;
        write_ref st r (f v)
    end.

  (** A program (src/fields2cover/types/Cells.cpp, MultiLineString.cpp, Cell.cpp; see the
      statements above). *)
  Definition run (ops : list op) (st : state) : outcome state := foldM step ops st.

  (** Declared variables, each with an empty object of its own
      (include/fields2cover/types/Geometry_impl.hpp:20-23). *)
  Definition st_init (nc np : nat) : state :=
    mkState (repeat [] nc) (repeat dflt np) 0 (seq 0 nc) (map Own (seq 0 np)).

  (** What a program sees of a collection variable: its parts
      (include/fields2cover/types/Geometry_impl.hpp:64-69). *)
  Definition coll_value (st : state) (x : nat) : outcome (list A) :=
    do a <- var (st_coll st) x; Ok (map snd (parts_of st a)).
  (** What a program sees of a part variable (include/fields2cover/types/Geometry_impl.hpp:64-69). *)
  Definition part_value (st : state) (p : nat) : outcome A :=
    do r <- var (st_part st) p; read_ref st r.
End Parts.
