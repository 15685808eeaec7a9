(** Model of the geometry containers LineString, LinearRing, MultiPoint,
    MultiLineString, Cell and Cells: iteration with write-back, element access,
    translation, scaling and splitting. *)
From Coq Require Import List Arith ZArith.

From Verif Require Import Outcome Num Point_Model Swath_Model.
Import ListNotations.
Local Open Scope nat_scope.

Section Container.
  Variable N : Num.
  Notation pt := (point N).

  (** A LineString, LinearRing or MultiPoint is the list of its points
      (include/fields2cover/types/LineString.h, LinearRing.h, MultiPoint.h); a
      MultiLineString is the list of its lines, a Cell the list of its rings, the
      exterior first, and a Cells the list of its cells.  Empty points inside a
      MultiPoint are not modelled: MultiPoint.cpp:97-100 adds none. *)
  Notation line := (list pt).
  Notation mline := (list line).
  Notation cell := (list line).
  Notation cells := (list cell).

  (** OGR's IsEmpty: a line without points; a polygon or collection all of whose
      parts are empty (used by include/fields2cover/types/Geometry_impl.hpp:221-224). *)
  Definition line_isEmpty (l : line) : bool := match l with [] => true | _ => false end.
  (** The same for a polygon (include/fields2cover/types/Geometry_impl.hpp:221-224). *)
  Definition cell_isEmpty (c : cell) : bool := forallb line_isEmpty c.
  (** The same for a collection of polygons (include/fields2cover/types/Geometry_impl.hpp:221-224). *)
  Definition cells_isEmpty (c : cells) : bool := forallb cell_isEmpty c.

  (** size() of MultiLineString.cpp:31-33, Cell.cpp:89-91 and Cells.cpp:135-137
      (src/fields2cover/types): 0 when every part is empty. *)
  Definition coll_size {A} (isEmpty : A -> bool) (l : list A) : nat :=
    if forallb isEmpty l then 0 else length l.

  (** getGeometry(i) of MultiLineString.cpp:87-101, Cell.cpp:56-70 and
      Cells.cpp:79-93 (src/fields2cover/types). *)
  Definition coll_getGeometry {A} (isEmpty : A -> bool) (l : list A) (i : nat) : outcome A :=
    if coll_size isEmpty l <=? i then Throw OutOfRange else vec_index l i.

  (** LineString::getGeometry and LinearRing::getGeometry
      (src/fields2cover/types/LineString.cpp:54-90, LinearRing.cpp:59-95),
      MultiPoint::getGeometry (MultiPoint.cpp:34-64). *)
  Definition line_getGeometry (l : line) (i : nat) : outcome pt := vec_at l i.

  (** LineString::setGeometry and LinearRing::setGeometry
      (src/fields2cover/types/LineString.cpp:92-94, LinearRing.cpp:97-99): OGR's
      setPoint grows the line with points (0, 0, 0) when needed. *)
  Definition line_setGeometry (l : line) (i : nat) (p : pt) : outcome line :=
    if i <? length l then vec_set l i p
    else Ok (l ++ repeat (p_default N) (i - length l) ++ [p]).

  (** MultiPoint::setGeometry (src/fields2cover/types/MultiPoint.cpp:75-80): writes
      through the pointer of getGeometryRef, null when out of range. *)
  Definition mpoint_setGeometry (l : line) (i : nat) (p : pt) : outcome line := vec_set l i p.

  (** OGR get_IsClosed, called by LinearRing::isClosed
      (src/fields2cover/types/LinearRing.cpp:125-127): the ends of a closed ring are equal
      in all coordinates.  Rings without z coordinate count as having z = 0. *)
  Definition pt_same (a b : pt) : bool :=
    neqb N (px a) (px b) && neqb N (py a) (py b) && neqb N (pz a) (pz b).
  (** LinearRing::closeRing (src/fields2cover/types/LinearRing.cpp:129-134). *)
  Definition closeRing (r : line) : line :=
    match r with
    | [] => []
    | p :: _ => if pt_same p (last r p) then r else r ++ [p]
    end.

  (** The text round trip exportToWkt / importFromWkt applied to each point by
      clone() (include/fields2cover/types/Geometries_impl.hpp:18-23). *)
  Variable wkt : pt -> pt.
  (** LineString::clone() and LinearRing::clone() (include/fields2cover/types/Geometries_impl.hpp:18-23). *)
  Definition line_clone (l : line) : line := map wkt l.

  (** addGeometry of MultiLineString and Cells (src/fields2cover/types/
      MultiLineString.cpp:120-122, Cells.cpp:126-128), and Cell::addRing, which
      clones and closes (Cell.cpp:123-130). *)
  Definition coll_addGeometry {A} (l : list A) (a : A) : list A := l ++ [a].
  (** Cell::addRing (src/fields2cover/types/Cell.cpp:123-130). *)
  Definition cell_addRing (c : cell) (r : line) : cell := c ++ [closeRing (line_clone r)].

  (** for (j = n; j < i; ++j) addGeometry(CHILD()) (src/fields2cover/types/
      MultiLineString.cpp:112-116, Cell.cpp:81-85, Cells.cpp:104-108). *)
  Fixpoint coll_pad {A} (add : list A -> A -> list A) (dflt : A) (k : nat) (l : list A) : list A :=
    match k with 0 => l | S k => coll_pad add dflt k (add l dflt) end.

  (** setGeometry of MultiLineString.cpp:103-118, Cell.cpp:72-87 and
      Cells.cpp:95-110 (src/fields2cover/types), one text for the three types: [add] is the
      type's addGeometry, [dflt] the empty child. *)
  Definition coll_setGeometry {A} (isEmpty : A -> bool) (add : list A -> A -> list A) (dflt : A)
      (l : list A) (i : nat) (a : A) : outcome (list A) :=
    let n := coll_size isEmpty l in
    if i <? n then
      foldM (fun acc j => do g <- (if i =? j then Ok a else coll_getGeometry isEmpty l j); Ok (add acc g))
        (seq 0 n) []
    else Ok (add (coll_pad add dflt (i - n) l) a).
  (** MultiLineString::setGeometry (src/fields2cover/types/MultiLineString.cpp:103-118). *)
  Definition mline_setGeometry (l : mline) (i : nat) (a : line) : outcome mline :=
    coll_setGeometry line_isEmpty coll_addGeometry [] l i a.
  (** Cell::setGeometry (src/fields2cover/types/Cell.cpp:72-87). *)
  Definition cell_setGeometry (c : cell) (i : nat) (r : line) : outcome cell :=
    coll_setGeometry line_isEmpty cell_addRing [] c i r.
  (** Cells::setGeometry (src/fields2cover/types/Cells.cpp:95-110). *)
  Definition cells_setGeometry (c : cells) (i : nat) (a : cell) : outcome cells :=
    coll_setGeometry cell_isEmpty coll_addGeometry [] c i a.

  (** ** Iteration over points *)

  (** Geometries::Iterator (include/fields2cover/types/Geometries.h:31-56) over a
      container of points, together with the contents of the container. *)
  Record iter := mkIter { it_self : line; it_pos : nat; it_child : pt; it_checked : bool }.

  (** Iterator::update (Geometries_impl.hpp:42-58) for MultiPoint, LinearRing and
      LineString: the child is written back if it differs from the stored point by
      Point::operator!=. *)
  Definition it_update (set : line -> nat -> pt -> outcome line) (it : iter) : outcome iter :=
    if it_checked it then Ok it
    else
      do before <- line_getGeometry (it_self it) (it_pos it);
      do self <- (if p_ne N before (it_child it) then set (it_self it) (it_pos it) (it_child it)
                  else Ok (it_self it));
      Ok (mkIter self (it_pos it) (it_child it) true).

  (** Iterator::operator* (Geometries_impl.hpp:73-80); the child has a copy of the
      point's coordinates (Point::operator=, src/fields2cover/types/Point.cpp:23-35). *)
  Definition it_deref (set : line -> nat -> pt -> outcome line) (it : iter) : outcome iter :=
    do it <- it_update set it;
    do c <- line_getGeometry (it_self it) (it_pos it);
    Ok (mkIter (it_self it) (it_pos it) c false).

  (** Iterator::operator++ (Geometries_impl.hpp:82-88). *)
  Definition it_next (set : line -> nat -> pt -> outcome line) (it : iter) : outcome iter :=
    do it <- it_update set it;
    Ok (mkIter (it_self it) (S (it_pos it)) (it_child it) (it_checked it)).

  (** for (auto&& p : line) { p = f(p); }, e.g. src/fields2cover/types/LineString.cpp:101-105,
      MultiPoint.cpp:103-107, LinearRing.cpp:31-35, Swath.cpp:194-198: [n] is the position of the end
      iterator (Geometries_impl.hpp:150-155); the destructor updates (68-71). *)
  Fixpoint range_for (fuel : nat) (set : line -> nat -> pt -> outcome line) (f : pt -> pt) (n : nat) (it : iter)
    : outcome line :=
    match fuel with
    | 0 => Hang
    | S fuel =>
      if it_pos it =? n then do it <- it_update set it; Ok (it_self it)
      else
        do it <- it_deref set it;
        do it <- it_next set (mkIter (it_self it) (it_pos it) (f (it_child it)) (it_checked it));
        range_for fuel set f n it
    end.
  (** The loop from begin() (include/fields2cover/types/Geometries_impl.hpp:145-155). *)
  Definition for_points (set : line -> nat -> pt -> outcome line) (f : pt -> pt) (l : line) : outcome line :=
    range_for (S (length l)) set f (length l) (mkIter l 0 (p_default N) true).

  (** LineString::operator*= and LinearRing::operator*= (src/fields2cover/types/LineString.cpp:101-105,
      LinearRing.cpp:31-35). *)
  Definition line_scale (b : N) (l : line) : outcome line :=
    for_points line_setGeometry (fun p => p_scale N p b) l.

  (** MultiPoint::operator*= (src/fields2cover/types/MultiPoint.cpp:103-107). *)
  Definition mpoint_scale (b : N) (l : line) : outcome line :=
    for_points mpoint_setGeometry (fun p => p_scale N p b) l.

  (** Swath::moveTo (src/fields2cover/types/Swath.cpp:194-198). *)
  Definition swath_moveTo (ref_pt : pt) (s : swath pt N) : outcome (swath pt N) :=
    do path <- for_points line_setGeometry (fun p => p_add N p ref_pt) (sw_path s);
    Ok (swath_setPath s path).

  (** Swaths::moveTo (src/fields2cover/types/Swaths.cpp:150-154).  The swaths'
      lines are taken to be distinct objects. *)
  Definition swaths_moveTo (ref_pt : pt) (l : list (swath pt N)) : outcome (list (swath pt N)) :=
    mapM (swath_moveTo ref_pt) l.

  (** ** Iteration over lines, rings and cells *)

  (** The child of an iterator over a MultiLineString, Cell or Cells: getGeometry
      makes it point to the i-th part inside the container (Cells.cpp:63-69,
      Cell.cpp:35-43, MultiLineString.cpp:71-77 under src/fields2cover/types); an
      assignment to it makes it own another geometry (Geometry_impl.hpp:56-62). *)
  Inductive handle (A : Type) : Type := View (i : nat) | Own (a : A).
  Arguments View {A} i.
  Arguments Own {A} a.

  (** Reading through the handle (include/fields2cover/types/Geometry_impl.hpp:64-74). *)
  Definition h_read {A} (h : handle A) (self : list A) : outcome A :=
    match h with View i => vec_index self i | Own a => Ok a end.

  (** Statements of the loop body: a member function changing the geometry the
      handle points to (ring *= b, src/fields2cover/types/Cell.cpp:95), and an assignment c = g(c)
      (Cells.cpp:183). *)
  Definition h_mutate {A} (f : A -> outcome A) (st : handle A * list A) : outcome (handle A * list A) :=
    match fst st with
    | View i => do a <- vec_index (snd st) i; do a' <- f a; do self <- vec_set (snd st) i a'; Ok (View i, self)
    | Own a => do a' <- f a; Ok (Own a', snd st)
    end.
  (** The assignment c = g(c) in a loop body (src/fields2cover/types/Cells.cpp:183). *)
  Definition h_assign {A} (g : A -> outcome A) (st : handle A * list A) : outcome (handle A * list A) :=
    do a <- h_read (fst st) (snd st); do a' <- g a; Ok (Own a', snd st).

  (** for (auto&& c : container) body: Iterator::update does nothing for these types
      (include/fields2cover/types/Geometries_impl.hpp:43-47), operator* points the child to the i-th
      part (73-80). *)
  Definition for_parts {A} (isEmpty : A -> bool) (body : handle A * list A -> outcome (handle A * list A))
      (l : list A) : outcome (list A) :=
    foldM (fun self i => do st <- body (View i, self); Ok (snd st)) (seq 0 (coll_size isEmpty l)) l.

  (** operator*= of MultiLineString, Cell and Cells (src/fields2cover/types/
      MultiLineString.cpp:39-43, Cell.cpp:93-97, Cells.cpp:57-61). *)
  Definition mline_scale (b : N) (l : mline) : outcome mline :=
    for_parts line_isEmpty (h_mutate (line_scale b)) l.
  (** Cell::operator*= (src/fields2cover/types/Cell.cpp:93-97). *)
  Definition cell_scale (b : N) (c : cell) : outcome cell :=
    for_parts line_isEmpty (h_mutate (line_scale b)) c.
  (** Cells::operator*= (src/fields2cover/types/Cells.cpp:57-61). *)
  Definition cells_scale (b : N) (c : cells) : outcome cells :=
    for_parts cell_isEmpty (h_mutate (cell_scale b)) c.

  (** ** New geometries from old ones *)

  (** The templates T op(T, Point) of include/fields2cover/types/Point.h:154-178
      and rotateFromPoint (105-112): addGeometry of the image of every part, down to
      the points, where [f] is p + dir, p - dir, dir - p or the rotation. *)
  Definition line_image (f : pt -> pt) (l : line) : line := fold_left (fun res p => res ++ [f p]) l [].
  (** The same templates on a MultiLineString (include/fields2cover/types/Point.h:105-112,154-178). *)
  Definition mline_image (f : pt -> pt) (l : mline) : mline :=
    fold_left (fun res p => coll_addGeometry res (line_image f p)) (firstn (coll_size line_isEmpty l) l) [].
  (** The same templates on a Cell (include/fields2cover/types/Point.h:105-112,154-178). *)
  Definition cell_image (f : pt -> pt) (c : cell) : cell :=
    fold_left (fun res r => cell_addRing res (line_image f r)) (firstn (coll_size line_isEmpty c) c) [].
  (** The same templates on a Cells (include/fields2cover/types/Point.h:105-112,154-178). *)
  Definition cells_image (f : pt -> pt) (c : cells) : cells :=
    fold_left (fun res x => coll_addGeometry res (cell_image f x)) (firstn (coll_size cell_isEmpty c) c) [].

  (** operator+ and operator- with a point (include/fields2cover/types/Point.h:154-178). *)
  Definition cells_add (c : cells) (d : pt) : cells := cells_image (fun p => p_add N p d) c.
  (** operator- of a Cells and a point (include/fields2cover/types/Point.h:171-178). *)
  Definition cells_sub (c : cells) (d : pt) : cells := cells_image (fun p => p_sub N p d) c.

  (** ** Splitting *)

  (** GEOS: difference of cells, buffer of a line (include/fields2cover/types/Cells.h:98-104)
      and of a cell (src/fields2cover/types/Cells.cpp:160-162, Cell.cpp:99-101); a cell whose
      buffer is not a polygon throws (Cell.cpp:24). *)
  Variable difference : cells -> cells -> cells.
  Variable buffer_line : line -> N -> cells.
  Variable buffer_cell : cell -> N -> outcome cell.

  (** 1e-8 (src/fields2cover/types/Cells.cpp:181,183). *)
  Definition split_eps : N := ndiv N (nofZ N 1%Z) (nofZ N 100000000%Z).

  (** Cells::splitByLine(line) (src/fields2cover/types/Cells.cpp:180-186). *)
  Definition splitByLine (c : cells) (l : line) : outcome cells :=
    for_parts cell_isEmpty
      (h_assign (fun x => buffer_cell x (nmul N split_eps (ndiv N (nofZ N 1%Z) (nofZ N 2%Z)))))
      (difference c (buffer_line l split_eps)).

  (** Cells::splitByLine(lines) (src/fields2cover/types/Cells.cpp:188-194). *)
  Definition splitByLines (c : cells) (ls : mline) : outcome cells :=
    foldM splitByLine (firstn (coll_size line_isEmpty ls) ls) c.
End Container.
Notation line N := (list (point N)).
Notation mline N := (list (line N)).
Notation cell N := (list (line N)).
Notation cells N := (list (cell N)).
Arguments View {A} i.
Arguments Own {A} a.
