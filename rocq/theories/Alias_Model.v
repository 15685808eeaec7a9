(** Model of the sharing of centre lines between swaths.

    A LineString holds a std::shared_ptr to its OGR object
    (include/fields2cover/types/Geometry.h, member data_).  Its copy
    constructor and its copy assignment are the default ones
    (include/fields2cover/types/Geometry_impl.hpp:51,60-62), so a copy points to
    the same object; the copies of a Swath (src/fields2cover/types/Swath.cpp:23-26)
    and of a Swaths container inherit that.  Here the objects are in a heap, and
    a swath holds the address of its line.

    The other files model a swath together with its points.  This file tells
    when that is right.  *)
From Coq Require Import List Arith ZArith Bool.
From Verif Require Import Outcome Swath_Model.
Import ListNotations.

Section Alias.
  Context {P W : Type}.

  (** The parameters of Swath_Model.v, with the same meaning
      (src/fields2cover/types/Swath.cpp:172, include/fields2cover/types/Swath.h:100,
      src/fields2cover/types/Swath.cpp:94,101, src/fields2cover/types/Point.cpp:52-55,
      include/fields2cover/types/Geometries_impl.hpp:18-23). *)
  Variable w_nonpos : W -> bool.
  Variable w_zero : W.
  Variable p_default : P.
  Variable p_lt : P -> P -> bool.
  Variable wkt : P -> P.

  (** The std::sort call of src/fields2cover/types/Swaths.cpp:133: the comparison
      reads the ids only, so where the elements go is a function of the ids. *)
  Variable sort_perm : list Z -> list nat.

  (** The effect on the points of a line of the loop in Swath::moveTo
      (src/fields2cover/types/Swath.cpp:194-198). *)
  Variable move_points : P -> list P -> outcome (list P).

  (** The OGRLineString objects, by address.  An object is alive as long as a
      shared_ptr points to it (include/fields2cover/types/Geometry_impl.hpp:20-23);
      those without an owner are left in the heap, where nobody can see them. *)
  Definition heap : Type := list (list P).

  (** A swath with its members (include/fields2cover/types/Swath.h:98-102), where path_ is
      the address of its line: the list has one element.  The empty list is for
      a default constructed swath (src/fields2cover/types/Swath.cpp:11), whose line is
      empty and its own. *)
  Notation hswath := (swath nat W).

  (** Reading through data_ (include/fields2cover/types/Geometry_impl.hpp:64-69). *)
  Definition deref (h : heap) (a : nat) : list P := nth a h [].

  (** Writing through data_ (include/fields2cover/types/Geometry_impl.hpp:64-66). *)
  Definition store (h : heap) (a : nat) (l : list P) : heap :=
    firstn a h ++ match skipn a h with [] => [] | _ :: t => l :: t end.

  (** The points of a swath: Swath::path_ read by
      src/fields2cover/types/Swath.cpp:92-104,139-149. *)
  Definition h_path (h : heap) (s : hswath) : list P :=
    match sw_path s with a :: _ => deref h a | [] => [] end.

  (** A swath as its getters show it (src/fields2cover/types/Swath.cpp:139-188). *)
  Definition h_value (h : heap) (s : hswath) : swath P W :=
    mkSwath P W (sw_id s) (h_path h s) (sw_width s) (sw_dir s) (sw_type s).

  (** Writing the line of a swath in place
      (src/fields2cover/types/LineString.cpp:48,92-94). *)
  Definition h_write (h : heap) (s : hswath) (l : list P) : heap :=
    match sw_path s with a :: _ => store h a l | [] => h end.

  (** LineString(const std::vector<Point>&) and the default constructor
      (src/fields2cover/types/LineString.cpp:11-16,24-28): a new object. *)
  Definition h_new_line (h : heap) (l : list P) : nat * heap := (length h, h ++ [l]).

  (** LineString::clone() (include/fields2cover/types/Geometries_impl.hpp:18-23). *)
  Definition h_clone_line (h : heap) (a : nat) : nat * heap :=
    h_new_line h (map wkt (deref h a)).

  (** Swath(const LineString&, double, int, SwathType)
      (src/fields2cover/types/Swath.cpp:18-21): path_(_path) copies the pointer. *)
  Definition hs_new (a : nat) (w : W) (id : Z) (ty : swath_type) : outcome hswath :=
    swath_new w_nonpos w_zero [a] w id ty.

  (** Swath::reverse (src/fields2cover/types/Swath.cpp:72-75): the points are reversed in
      the object, the flag in this swath. *)
  Definition hs_reverse (h : heap) (s : hswath) : hswath * heap :=
    (swath_setCreationDir s (negb (sw_dir s)), h_write h s (rev (h_path h s))).

  (** Swath::clone (src/fields2cover/types/Swath.cpp:117-121). *)
  Definition hs_clone (h : heap) (s : hswath) : outcome (hswath * heap) :=
    let (a, h') := h_new_line h (map wkt (h_path h s)) in
    do n <- hs_new a (sw_width s) (sw_id s) MAINLAND;
    Ok (swath_setCreationDir n (sw_dir s), h').

  (** Swath::moveTo (src/fields2cover/types/Swath.cpp:194-198). *)
  Definition hs_moveTo (h : heap) (ref_pt : P) (s : hswath) : outcome heap :=
    do l <- move_points ref_pt (h_path h s); Ok (h_write h s l).

  (** Swath::targetOppositeDirAs (src/fields2cover/types/Swath.cpp:133-137). *)
  Definition hs_targetOppositeDirAs (h : heap) (s t : hswath) : hswath * heap :=
    if swath_hasSameDir s t then hs_reverse h s else (s, h).

  (** One turn of the loop in Swaths::sort (src/fields2cover/types/Swaths.cpp:128-132). *)
  Definition hs_orient (h : heap) (s : hswath) : hswath * heap :=
    if p_lt (swath_endPoint p_default (h_value h s)) (swath_startPoint p_default (h_value h s))
    then hs_reverse h s else (s, h).

  (** The loop of Swaths::sort (src/fields2cover/types/Swaths.cpp:128-132). *)
  Fixpoint hss_orient (h : heap) (l : list hswath) : list hswath * heap :=
    match l with
    | [] => ([], h)
    | s :: l =>
        let (s', h') := hs_orient h s in
        let (l', h'') := hss_orient h' l in
        (s' :: l', h'')
    end.

  (** std::sort (src/fields2cover/types/Swaths.cpp:133) as a permutation that depends on
      the ids (src/fields2cover/types/Swath.cpp:42-44). *)
  Definition sort_by_ids {Q : Type} (l : list (swath Q W)) : list (swath Q W) :=
    flat_map (fun i => match nth_error l i with Some s => [s] | None => [] end)
             (sort_perm (map sw_id l)).

  (** Swaths::sort (src/fields2cover/types/Swaths.cpp:127-134). *)
  Definition hss_sort (h : heap) (l : list hswath) : list hswath * heap :=
    let (l', h') := hss_orient h l in (sort_by_ids l', h').

  (** The loop of Swaths::reverseDirOddSwaths (src/fields2cover/types/Swaths.cpp:137-139). *)
  Fixpoint hss_reverseDirOdd_from (h : heap) (prev : hswath) (l : list hswath)
    : list hswath * heap :=
    match l with
    | [] => ([], h)
    | s :: l =>
        let (s', h') := hs_targetOppositeDirAs h s prev in
        let (l', h'') := hss_reverseDirOdd_from h' s' l in
        (s' :: l', h'')
    end.

  (** Swaths::reverseDirOddSwaths (src/fields2cover/types/Swaths.cpp:136-140). *)
  Definition hss_reverseDirOddSwaths (h : heap) (l : list hswath) : list hswath * heap :=
    match l with
    | [] => ([], h)
    | s :: l => let (l', h') := hss_reverseDirOdd_from h s l in (s :: l', h')
    end.

  (** Swaths::clone (src/fields2cover/types/Swaths.cpp:142-148). *)
  Fixpoint hss_clone (h : heap) (l : list hswath) : outcome (list hswath * heap) :=
    match l with
    | [] => Ok ([], h)
    | s :: l =>
        do p <- hs_clone h s;
        do q <- hss_clone (snd p) l;
        Ok (fst p :: fst q, snd q)
    end.

  (** Swaths::moveTo (src/fields2cover/types/Swaths.cpp:150-154). *)
  Definition hss_moveTo (h : heap) (ref_pt : P) (l : list hswath) : outcome heap :=
    foldM (fun h s => hs_moveTo h ref_pt s) l h.

  (** SwathsByCells::clone (src/fields2cover/types/SwathsByCells.cpp:114-120). *)
  Fixpoint hsbc_clone (h : heap) (d : list (list hswath)) : outcome (list (list hswath) * heap) :=
    match d with
    | [] => Ok ([], h)
    | l :: d =>
        do p <- hss_clone h l;
        do q <- hsbc_clone (snd p) d;
        Ok (fst p :: fst q, snd q)
    end.

  (** SingleCellSwathsOrderBase::changeStartPoint
      (src/fields2cover/route_planning/single_cell_swaths_order_base.cpp:25-33). *)
  Definition h_changeStartPoint (h : heap) (l : list hswath) (variant : N)
    : outcome (list hswath * heap) :=
    let l1 := if N.testbit variant 0 then swaths_reverse l else l in
    if N.testbit variant 1 then
      do s <- vec_index l1 0;
      let (s', h') := hs_reverse h s in
      do l2 <- vec_set l1 0 s';
      Ok (l2, h')
    else Ok (l1, h).

  (** SingleCellSwathsOrderBase::genSortedSwaths
      (src/fields2cover/route_planning/single_cell_swaths_order_base.cpp:12-23); the four
      sortSwaths only move and copy swaths about, as in Swath_Model.v. *)
  Definition h_genSortedSwaths (k : order_kind) (h : heap) (l : list hswath) (variant : N)
    : outcome (list hswath * heap) :=
    do p <- hss_clone h l;
    let (c, h0) := p in
    match c with
    | [] => Ok ([], h0)
    | _ =>
        let (c1, h1) := hss_sort h0 c in
        do q <- h_changeStartPoint h1 c1 variant;
        do c3 <- sortSwaths w_zero k (fst q);
        Ok (hss_reverseDirOddSwaths (snd q) c3)
    end.

  (** ** Histories *)

  (** The variables of a program, by number: LineStrings (None until they are
      declared) and Swaths (empty by default,
      src/fields2cover/types/Swaths.cpp:12). *)
  Record state := mkState {
    st_heap : heap;
    st_line : nat -> option nat;
    st_cont : nat -> list hswath
  }.

  (** One statement of a program, for the functions of
      src/fields2cover/types/LineString.cpp:11-120, Swath.cpp:11-198, Swaths.cpp:12-154 and
      SwathsByCells.cpp:11-128 above. *)
  Inductive op : Type :=
  | NewLine (x : nat) (l : list P)                (* LineString x(l); *)
  | CopyLine (x y : nat)                          (* LineString y = x; *)
  | CloneLine (x y : nat)                         (* LineString y = x.clone(); *)
  | ReversePoints (x : nat)                       (* x.reversePoints(); *)
  | GetPath (c i x : nat)                         (* LineString x = c.at(i).getPath(); *)
  | SetPath (c i x : nat)                         (* c.at(i).setPath(x); *)
  | Emplace (c x : nat) (w : W) (id : Z) (ty : swath_type)
                                                  (* c.emplace_back(x, w, id, ty); *)
  | EmplaceNew (c : nat) (l : list P) (w : W) (id : Z) (ty : swath_type)
                                                  (* c.emplace_back(LineString(l), w, id, ty); *)
  | NewSwaths (c : nat)                           (* Swaths c; *)
  | PushBack (c d i : nat)                        (* c.push_back(d.at(i)); *)
  | Append (c d : nat)                            (* c.append(d);  also flatten() *)
  | CopySwaths (c d : nat)                        (* Swaths d = c; *)
  | CloneSwaths (c d : nat)                       (* Swaths d = c.clone(); *)
  | ReverseSwath (c i : nat)                      (* c.at(i).reverse(); *)
  | ReverseOrder (c : nat)                        (* c.reverse(); *)
  | ReverseDirOdd (c : nat)                       (* c.reverseDirOddSwaths(); *)
  | Sort (c : nat)                                (* c.sort(); *)
  | MoveTo (c : nat) (ref_pt : P)                 (* c.moveTo(ref_pt); *)
  | GenSorted (k : order_kind) (v : N) (c d : nat).
                                                  (* Swaths d = k.genSortedSwaths(c, v); *)

  (** Assignment to a variable (src/fields2cover/types/Swath.cpp:25-26 for the elements). *)
  Definition set {A : Type} (f : nat -> A) (x : nat) (a : A) : nat -> A :=
    fun y => if y =? x then a else f y.

  (** A declared LineString variable (src/fields2cover/types/LineString.cpp:11-39). *)
  Definition get_line {A : Type} (f : nat -> option A) (x : nat) : outcome A :=
    match f x with Some a => Ok a | None => UB end.

  (** The effect of a statement (src/fields2cover/types/Swath.cpp, Swaths.cpp; see the
      functions above; Swaths::append(const Swaths&), Swaths.cpp:121-125, of a container to
      itself changes the vector it walks over). *)
  Definition step (st : state) (o : op) : outcome state :=
    let h := st_heap st in
    let ls := st_line st in
    let cs := st_cont st in
    match o with
    | NewLine x l =>
        let (a, h') := h_new_line h l in Ok (mkState h' (set ls x (Some a)) cs)
    | CopyLine x y =>
        do a <- get_line ls x; Ok (mkState h (set ls y (Some a)) cs)
    | CloneLine x y =>
        do a <- get_line ls x;
        let (b, h') := h_clone_line h a in Ok (mkState h' (set ls y (Some b)) cs)
    | ReversePoints x =>
        do a <- get_line ls x; Ok (mkState (store h a (rev (deref h a))) ls cs)
    | GetPath c i x =>
        do s <- vec_at (cs c) i;
        match sw_path s with
        | a :: _ => Ok (mkState h (set ls x (Some a)) cs)
        | [] => UB
        end
    | SetPath c i x =>
        do s <- vec_at (cs c) i;
        do a <- get_line ls x;
        do l <- vec_set (cs c) i (swath_setPath s [a]);
        Ok (mkState h ls (set cs c l))
    | Emplace c x w id ty =>
        do a <- get_line ls x;
        do s <- hs_new a w id ty;
        Ok (mkState h ls (set cs c (cs c ++ [s])))
    | EmplaceNew c l w id ty =>
        let (a, h') := h_new_line h l in
        do s <- hs_new a w id ty;
        Ok (mkState h' ls (set cs c (cs c ++ [s])))
    | NewSwaths c => Ok (mkState h ls (set cs c []))
    | PushBack c d i =>
        do s <- vec_at (cs d) i; Ok (mkState h ls (set cs c (cs c ++ [s])))
    | Append c d =>
        if (c =? d) && negb (length (cs d) =? 0) then UB
        else Ok (mkState h ls (set cs c (swaths_append_swaths (cs c) (cs d))))
    | CopySwaths c d => Ok (mkState h ls (set cs d (cs c)))
    | CloneSwaths c d =>
        do p <- hss_clone h (cs c); Ok (mkState (snd p) ls (set cs d (fst p)))
    | ReverseSwath c i =>
        do s <- vec_at (cs c) i;
        let (s', h') := hs_reverse h s in
        do l <- vec_set (cs c) i s';
        Ok (mkState h' ls (set cs c l))
    | ReverseOrder c => Ok (mkState h ls (set cs c (swaths_reverse (cs c))))
    | ReverseDirOdd c =>
        let (l, h') := hss_reverseDirOddSwaths h (cs c) in
        Ok (mkState h' ls (set cs c l))
    | Sort c =>
        let (l, h') := hss_sort h (cs c) in Ok (mkState h' ls (set cs c l))
    | MoveTo c r =>
        do h' <- hss_moveTo h r (cs c); Ok (mkState h' ls cs)
    | GenSorted k v c d =>
        do p <- h_genSortedSwaths k h (cs c) v;
        Ok (mkState (snd p) ls (set cs d (fst p)))
    end.

  (** A program: a sequence of statements on the functions of
      src/fields2cover/types/Swath.cpp:11-198 and Swaths.cpp:12-154. *)
  Definition run (ops : list op) (st : state) : outcome state := foldM step ops st.

  (** The state before the first statement (src/fields2cover/types/Swaths.cpp:12). *)
  Definition st_init : state := mkState [] (fun _ => None) (fun _ => []).
End Alias.
