(** Model of fields that share their cells.

    The member field_ of a Field is a Cells (include/fields2cover/types/Field.h:67-73),
    which holds a std::shared_ptr to its OGR object (include/fields2cover/types/Geometry.h,
    member data_).  Copies of a Field (src/fields2cover/types/Field.cpp:21-24), setField
    (72-74) and a copy of getField() (64-66) point to the same object; the texts are copied,
    and so is the reference point (src/fields2cover/types/Point.cpp:19,30-35).  Here the
    objects are in a heap, and a field holds the address of its cells.

    Field_Model.v and Transform_Model.v model a field together with its cells.  This
    file tells when that is right.  *)
From Coq Require Import Ascii String ZArith Bool Arith Reals List.
From Verif Require Import Outcome Num Point_Model Angle_Model Container_Model Parts_Model Text_Model Field_Model Transform_Model.
Import ListNotations.
Local Open Scope nat_scope.

Section Holder.
  (** As in Transform_Model.v: building a transformation
      (src/fields2cover/utils/transformation.cpp:278), and the text round trip of clone()
      (include/fields2cover/types/Geometries_impl.hpp:18-23). *)
  Variable mk : sptref -> sptref -> outcome (rpoint -> rpoint).
  Variable wkt : rpoint -> rpoint.

  Notation rcells := (cells RNum).

  (** The members of include/fields2cover/types/Field.h:67-73, the cells by their address. *)
  Record hfield := mkH { h_id : text; h_crs : text; h_prev : text; h_ref : rpoint; h_cells : nat }.

  (** The objects and the variables of a program: [st_heap] has the OGR objects,
      [st_cells] what the Cells variables point to
      (include/fields2cover/types/Geometry.h, member data_), [st_field] the Field variables
      (include/fields2cover/types/Field.h:67-73).  Objects that nothing points to are left
      in the heap, where nobody can see them. *)
  Record state := mkState { st_heap : list rcells; st_cells : list nat; st_field : list hfield }.

  (** Reading through data_ (include/fields2cover/types/Geometry_impl.hpp:64-69). *)
  Definition deref (h : list rcells) (a : nat) : rcells := nth a h [].

  (** A field with the cells it points to (include/fields2cover/types/Field.h:67-73). *)
  Definition h_value (h : list rcells) (f : hfield) : rfield :=
    mkField (h_id f) (h_crs f) (h_prev f) (h_ref f) (deref h (h_cells f)).

  (** The default copies (src/fields2cover/types/Field.cpp:21,24) with another value of
      one member (src/fields2cover/types/Field.cpp:32-34,40-42,48-50,60-62,72-74). *)
  Definition h_setId (f : hfield) (t : text) : hfield := mkH t (h_crs f) (h_prev f) (h_ref f) (h_cells f).
  (** src/fields2cover/types/Field.cpp:40-42. *)
  Definition h_setCRS (f : hfield) (t : text) : hfield := mkH (h_id f) t (h_prev f) (h_ref f) (h_cells f).
  (** src/fields2cover/types/Field.cpp:48-50. *)
  Definition h_setPrevCRS (f : hfield) (t : text) : hfield := mkH (h_id f) (h_crs f) t (h_ref f) (h_cells f).
  (** src/fields2cover/types/Field.cpp:60-62. *)
  Definition h_setRefPoint (f : hfield) (p : rpoint) : hfield := mkH (h_id f) (h_crs f) (h_prev f) p (h_cells f).
  (** src/fields2cover/types/Field.cpp:72-74: the address is copied. *)
  Definition h_setField (f : hfield) (a : nat) : hfield := mkH (h_id f) (h_crs f) (h_prev f) (h_ref f) a.

  (** A new object: every Geometry that is not a copy makes one
      (include/fields2cover/types/Geometry_impl.hpp:20-23). *)
  Definition alloc (h : list rcells) (c : rcells) : list rcells * nat := (h ++ [c], length h).

  (** Field::Field(cells, id) (src/fields2cover/types/Field.cpp:13-18): operator- makes a new
      object (include/fields2cover/types/Point.h:171-178). *)
  Definition h_make (h : list rcells) (c : rcells) (id : text) : outcome (list rcells * hfield) :=
    do ref <- (if negb (cells_isEmpty RNum c) then do b <- cells_getCellBorder RNum c 0; ring_startPoint RNum b
               else Ok (p_default RNum));
    let (h1, a) := alloc h (cells_sub RNum wkt c ref) in
    Ok (h1, mkH id [] [] ref a).

  (** Field::clone (src/fields2cover/types/Field.cpp:76-80). *)
  Definition h_clone (h : list rcells) (f : hfield) : outcome (list rcells * hfield) :=
    let (h1, a) := alloc h (cells_add RNum wkt (deref h (h_cells f)) (h_ref f)) in
    do r <- h_make h1 (deref h1 a) (h_id f);
    Ok (fst r, h_setCRS (snd r) (h_crs f)).

  (** Functions on a field passed by reference: the objects and the field as they are
      afterwards, also when they throw (src/fields2cover/utils/transformation.cpp:20-33). *)
  Definition on_h := (list rcells * hfield * outcome unit)%type.
  (** The statement [s] followed by [k], as in src/fields2cover/utils/transformation.cpp:20-33. *)
  Definition h_then (s : on_h) (k : list rcells -> hfield -> on_h) : on_h :=
    match snd s with Ok _ => k (fst (fst s)) (snd (fst s)) | _ => s end.
  (** Evaluating an expression, then the rest, as in src/fields2cover/utils/transformation.cpp:20-33. *)
  Definition h_eval {A} (h : list rcells) (f : hfield) (o : outcome A) (k : A -> on_h) : on_h :=
    match o with Ok a => k a | Throw e => (h, f, Throw e) | UB => (h, f, UB) | Hang => (h, f, Hang) end.

  (** Transform::transform(field, to) (src/fields2cover/utils/transformation.cpp:20-33): the
      sum of line 22 is a new object, which line 23 changes in place; the difference
      of line 26 is another one. *)
  Definition h_transform (h : list rcells) (f : hfield) (to : text) : on_h :=
    let finish (h : list rcells) (f : hfield) : on_h := (h, h_setCRS (h_setPrevCRS f (h_crs f)) to, Ok tt) in
    if negb (cells_isEmpty RNum (deref h (h_cells f))) then
      let (h1, a1) := alloc h (cells_add RNum wkt (deref h (h_cells f)) (h_ref f)) in
      let f1 := h_setField f a1 in
      h_eval h1 f1 (generateCoordTransf mk (h_crs f1) to) (fun ct =>
      let h2 := assign h1 (h_cells f1) (map (map (map ct)) (deref h1 (h_cells f1))) in
      h_eval h2 f1 (do b <- cells_getCellBorder RNum (deref h2 (h_cells f1)) 0; ring_startPoint RNum b) (fun ref =>
      let f3 := h_setRefPoint f1 ref in
      let (h4, a4) := alloc h2 (cells_sub RNum wkt (deref h2 (h_cells f3)) (h_ref f3)) in
      finish h4 (h_setField f3 a4)))
    else
      h_eval h f (transform_point mk (h_ref f) (h_crs f) to) (fun ref => finish h (h_setRefPoint f ref)).

  (** Transform::transformToUTM (src/fields2cover/utils/transformation.cpp:149-194). *)
  Definition h_toUTM (h : list rcells) (f : hfield) (is_etrs89_opt : bool) : on_h :=
    let crs := h_crs f in
    let nil := match crs with [] => true | _ => false end in
    let last (h : list rcells) (f : hfield) (field_crs : text) : on_h :=
      h_eval h f (utm_name (h_ref f) (h_crs f)) (fun utm_zone =>
      h_then (h_transform h f utm_zone) (fun h f => (h, h_setPrevCRS f field_crs, Ok tt))) in
    if negb nil && negb (is_text crs (txt "EPSG:4258")) && negb (is_text crs (txt "EPSG:4326")) then
      h_then (h_transform h f (txt "EPSG:4326")) (fun h f =>
      h_then (if is_etrs89_opt && in_europe (h_ref f) then h_transform h f (txt "EPSG:4258") else (h, f, Ok tt)) (fun h f =>
      last h f crs))
    else if nil then
      h_then (if p_eq RNum (h_ref f) (p_default RNum)
              then h_eval h f (h_clone h f) (fun r => (fst r, snd r, Ok tt)) else (h, f, Ok tt)) (fun h f =>
      if p_eq RNum (h_ref f) (p_default RNum) then (h, f, Throw OutOfRange)
      else if is_etrs89_opt && in_europe (h_ref f) then
        let f := h_setCRS f (txt "EPSG:4258") in last h f (h_crs f)
      else if in_world (h_ref f) then
        let f := h_setCRS f (txt "EPSG:4326") in last h f (h_crs f)
      else (h, f, Throw InvalidArgument))
    else last h f crs.

  (** Transform::transformToPrevCRS(field) (src/fields2cover/utils/transformation.cpp:197-203). *)
  Definition h_toPrevCRS (h : list rcells) (f : hfield) : on_h :=
    match h_prev f with [] => (h, f, Throw InvalidArgument) | _ => h_transform h f (h_prev f) end.

  (** The statements of a program on Cells and Field variables:
      - x = Cells with the value c, made anew (include/fields2cover/types/Geometry_impl.hpp:20-23)
      - y = x (Geometry_impl.hpp:51,60-62)
      - a change of the object of x in place, as by addGeometry
        (src/fields2cover/types/Cells.cpp:126-128) or through operator-> (Geometry_impl.hpp:64-66)
      - f = Field() and f = Field(x, id) (src/fields2cover/types/Field.cpp:12-18)
      - g = f (Field.cpp:21,24), g = f.clone() (76-80)
      - f.setField(x) (72-74), x = f.getField() (64-66)
      - a change in place of the object behind f.getField() (64-66)
      - f.setId, setCRS, setPrevCRS, setRefPoint (32-62)
      - Transform::transform(f, to), transformToUTM(f, opt), transformToPrevCRS(f)
        (src/fields2cover/utils/transformation.cpp:20-33,149-203). *)
  Inductive op : Type :=
  | NewCells (x : nat) (c : rcells)
  | CopyCells (x y : nat)
  | EditCells (x : nat) (e : rcells -> rcells)
  | NewField (f : nat)
  | MakeField (x : nat) (id : text) (f : nat)
  | CopyField (f g : nat)
  | CloneField (f g : nat)
  | SetField (f x : nat)
  | GetField (f x : nat)
  | EditField (f : nat) (e : rcells -> rcells)
  | SetId (f : nat) (t : text)
  | SetCRS (f : nat) (t : text)
  | SetPrevCRS (f : nat) (t : text)
  | SetRefPoint (f : nat) (p : rpoint)
  | TransformField (f : nat) (to : text)
  | ToUTM (f : nat) (is_etrs89_opt : bool)
  | ToPrevCRS (f : nat).

  (** A statement that has ended without an exception, or with one; as the program may
      catch it, what the statement has done until then stays
      (src/fields2cover/utils/transformation.cpp:20-33). *)
  Definition ended (h : list rcells) (cs : list nat) (fs : list hfield) (x : nat) (s : on_h)
    : outcome (state * option exn) :=
    match s with
    | (h', f', Ok _) => Ok (mkState h' cs (assign fs x f'), None)
    | (h', f', Throw e) => Ok (mkState h' cs (assign fs x f'), Some e)
    | (_, _, UB) => UB
    | (_, _, Hang) => Hang
    end.

  (** A statement; the lines are given at [op].  Setters and copies cannot throw; the
      constructor and clone are undefined for some cells
      (src/fields2cover/types/Field.cpp:13-24,76-80). *)
  Definition step (st : state) (o : op) : outcome (state * option exn) :=
    let h := st_heap st in
    let cs := st_cells st in
    let fs := st_field st in
    let fine (h : list rcells) (cs : list nat) (fs : list hfield) : outcome (state * option exn) :=
      Ok (mkState h cs fs, None) in
    match o with
    | NewCells x c =>
        do _ <- var cs x;
        let (h1, a) := alloc h c in fine h1 (assign cs x a) fs
    | CopyCells x y => do a <- var cs x; do _ <- var cs y; fine h (assign cs y a) fs
    | EditCells x e => do a <- var cs x; fine (assign h a (e (deref h a))) cs fs
    | NewField f =>
        do _ <- var fs f;
        let (h1, a) := alloc h [] in fine h1 cs (assign fs f (mkH [] [] [] (p_default RNum) a))
    | MakeField x id f =>
        do a <- var cs x; do _ <- var fs f;
        do r <- h_make h (deref h a) id; fine (fst r) cs (assign fs f (snd r))
    | CopyField f g => do v <- var fs f; do _ <- var fs g; fine h cs (assign fs g v)
    | CloneField f g =>
        do v <- var fs f; do _ <- var fs g;
        do r <- h_clone h v; fine (fst r) cs (assign fs g (snd r))
    | SetField f x => do v <- var fs f; do a <- var cs x; fine h cs (assign fs f (h_setField v a))
    | GetField f x => do v <- var fs f; do _ <- var cs x; fine h (assign cs x (h_cells v)) fs
    | EditField f e => do v <- var fs f; fine (assign h (h_cells v) (e (deref h (h_cells v)))) cs fs
    | SetId f t => do v <- var fs f; fine h cs (assign fs f (h_setId v t))
    | SetCRS f t => do v <- var fs f; fine h cs (assign fs f (h_setCRS v t))
    | SetPrevCRS f t => do v <- var fs f; fine h cs (assign fs f (h_setPrevCRS v t))
    | SetRefPoint f p => do v <- var fs f; fine h cs (assign fs f (h_setRefPoint v p))
    | TransformField f to => do v <- var fs f; ended h cs fs f (h_transform h v to)
    | ToUTM f b => do v <- var fs f; ended h cs fs f (h_toUTM h v b)
    | ToPrevCRS f => do v <- var fs f; ended h cs fs f (h_toPrevCRS h v)
    end.

  (** A program that catches what its statements throw, and the list of what they threw
      (src/fields2cover/utils/transformation.cpp:149-203). *)
  Definition run (ops : list op) (st : state) : outcome (state * list (option exn)) :=
    foldM (fun sl o => do r <- step (fst sl) o; Ok (fst r, snd sl ++ [snd r])) ops (st, []).

  (** All variables default constructed: each has an empty object of its own
      (include/fields2cover/types/Geometry_impl.hpp:20-23, src/fields2cover/types/Field.cpp:12). *)
  Definition st_init (nc nf : nat) : state :=
    mkState (repeat [] (nc + nf)) (seq 0 nc)
      (map (fun a => mkH [] [] [] (p_default RNum) a) (seq nc nf)).
End Holder.
