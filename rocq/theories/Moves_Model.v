(** Model of copying, moving and exchanging objects that hold geometries
    (src/fields2cover/types/Point.cpp, include/fields2cover/types/Geometry_impl.hpp and
    the implicit operations of the types that contain them). *)
From Coq Require Import List Arith ZArith Bool.
From Verif Require Import Outcome Num Point_Model Path_Model Text_Model.
Import ListNotations.

(** A Point object: the OGRPoint it owns (the copy constructor clones, so it is not shared),
    or None once the object has been moved from (include/fields2cover/types/Geometry_impl.hpp:53-54
    moves the shared_ptr data_ of include/fields2cover/types/Geometry.h:129). *)
Definition point_obj (N : Num) : Type := option (point N).

Section Moves.
  Variable N : Num.
  Notation pobj := (point_obj N).

  (** src/fields2cover/types/Point.cpp:92: a null shared_ptr is dereferenced after a move. *)
  Definition po_X (a : pobj) : outcome N := match a with Some p => Ok (px p) | None => UB end.
  (** src/fields2cover/types/Point.cpp:93. *)
  Definition po_Y (a : pobj) : outcome N := match a with Some p => Ok (py p) | None => UB end.
  (** src/fields2cover/types/Point.cpp:94. *)
  Definition po_Z (a : pobj) : outcome N := match a with Some p => Ok (pz p) | None => UB end.
  (** src/fields2cover/types/Point.cpp:99. *)
  Definition po_setX (a : pobj) (x : N) : outcome pobj :=
    match a with Some p => Ok (Some (mkPoint x (py p) (pz p))) | None => UB end.
  (** src/fields2cover/types/Point.cpp:100. *)
  Definition po_setY (a : pobj) (y : N) : outcome pobj :=
    match a with Some p => Ok (Some (mkPoint (px p) y (pz p))) | None => UB end.
  (** src/fields2cover/types/Point.cpp:101. *)
  Definition po_setZ (a : pobj) (z : N) : outcome pobj :=
    match a with Some p => Ok (Some (mkPoint (px p) (py p) z)) | None => UB end.

  (** The copy constructor, through clone(): src/fields2cover/types/Point.cpp:19,88-90. *)
  Definition po_copy (a : pobj) : outcome pobj :=
    do x <- po_X a; do y <- po_Y a; do z <- po_Z a; Ok (Some (mkPoint x y z)).
  (** The move constructor (src/fields2cover/types/Point.cpp:20): the new object and
      what is left of [a]. *)
  Definition po_move (a : pobj) : pobj * pobj := (a, None).
  (** Both assignments [a = b] (src/fields2cover/types/Point.cpp:23-28,30-35) for two different
      objects: the coordinates are set one by one. *)
  Definition po_assign (a b : pobj) : outcome pobj :=
    do x <- po_X b; do a <- po_setX a x;
    do y <- po_Y b; do a <- po_setY a y;
    do z <- po_Z b; po_setZ a z.
  (** The move assignment (src/fields2cover/types/Point.cpp:23-28) as the new [a] and what is left of [b], which is
      only read. *)
  Definition po_move_assign (a b : pobj) : outcome (pobj * pobj) := do a <- po_assign a b; Ok (a, b).

  (** A PathState object (include/fields2cover/types/PathState.h:27-33): its point, and the other members,
      which are plain numbers. *)
  Record state_obj : Type := mkSO { so_point : pobj; so_rest : N * N * Z * Z * N }.
  (** The implicit move constructor of include/fields2cover/types/PathState.h:27-37. *)
  Definition so_move (a : state_obj) : state_obj * state_obj :=
    (mkSO (fst (po_move (so_point a))) (so_rest a), mkSO (snd (po_move (so_point a))) (so_rest a)).
  (** The implicit assignments of include/fields2cover/types/PathState.h:27-37, member by member: the new
      [a] and what is left of [b]. *)
  Definition so_assign (a b : state_obj) : outcome (state_obj * state_obj) :=
    do p <- po_assign (so_point a) (so_point b); Ok (mkSO p (so_rest b), b).

  (** The geometry held by a line, a ring, cells, ... : the shared_ptr (any type of addresses), None
      when it is null (include/fields2cover/types/Geometry.h:129). *)
  Variable addr : Type.
  (** A geometry without assignments of its own, e.g. Cells: include/fields2cover/types/Geometry_impl.hpp:53-54
      moves the pointer. *)
  Definition go_move (a : option addr) : option addr * option addr := (a, None).
  (** include/fields2cover/types/Geometry_impl.hpp:56-58. *)
  Definition go_assign (a b : option addr) : option addr * option addr := (b, None).
  (** include/fields2cover/types/Geometry_impl.hpp:50-51: copies share the data. *)
  Definition go_copy (a : option addr) : option addr := a.

  (** What moving leaves in a std::string (unspecified by the standard); used for the names of
      include/fields2cover/types/Field.h:68-70. *)
  Variable spent : text -> text.
  (** A Field object: include/fields2cover/types/Field.h:67-72. *)
  Record field_obj : Type :=
    mkFO { fo_id : text; fo_crs : text; fo_prev : text; fo_ref : pobj; fo_cells : option addr }.
  (** src/fields2cover/types/Field.cpp:22. *)
  Definition fo_move (a : field_obj) : field_obj * field_obj :=
    (mkFO (fo_id a) (fo_crs a) (fo_prev a) (fst (po_move (fo_ref a))) (fst (go_move (fo_cells a))),
     mkFO (spent (fo_id a)) (spent (fo_crs a)) (spent (fo_prev a)) (snd (po_move (fo_ref a))) (snd (go_move (fo_cells a)))).
  (** src/fields2cover/types/Field.cpp:23. *)
  Definition fo_assign (a b : field_obj) : outcome (field_obj * field_obj) :=
    do p <- po_assign (fo_ref a) (fo_ref b);
    Ok (mkFO (fo_id b) (fo_crs b) (fo_prev b) p (fst (go_assign (fo_cells a) (fo_cells b))),
        mkFO (spent (fo_id b)) (spent (fo_crs b)) (spent (fo_prev b)) (fo_ref b) (snd (go_assign (fo_cells a) (fo_cells b)))).

  (** A Swath object (include/fields2cover/types/Swath.h:97-102): its line, and the other
      members, which are plain numbers. *)
  Record swath_obj : Type := mkWO { wo_path : option addr; wo_rest : Z * N * bool * bool }.
  (** A swath is not moved but copied, since it declares a copy constructor and no move constructor
      (include/fields2cover/types/Swath.h:30, src/fields2cover/types/Swath.cpp:23). *)
  Definition wo_move (a : swath_obj) : swath_obj * swath_obj := (mkWO (go_copy (wo_path a)) (wo_rest a), a).
  (** src/fields2cover/types/Swath.cpp:25. *)
  Definition wo_assign (a b : swath_obj) : outcome (swath_obj * swath_obj) :=
    Ok (mkWO (fst (go_assign (wo_path a) (wo_path b))) (wo_rest b), mkWO (snd (go_assign (wo_path a) (wo_path b))) (wo_rest b)).
End Moves.

(** std::swap (used by the std::reverse of src/fields2cover/types/Swaths.cpp:59): tmp(move(a)), a = move(b),
    b = move(tmp). *)
Definition std_swap {A} (move : A -> A * A) (assign : A -> A -> outcome (A * A)) (a b : A) : outcome (A * A) :=
  let (tmp, a) := move a in
  do (a, b) <- assign a b;
  do (b, tmp) <- assign b tmp;
  Ok (a, b).

(** std::reverse on a vector (src/fields2cover/types/Swaths.cpp:59, src/fields2cover/types/SwathsByCells.cpp:55):
    the i-th element is exchanged with the i-th last, up to the middle. *)
Definition std_reverse {A} (swap : A -> A -> outcome (A * A)) (l : list A) : outcome (list A) :=
  foldM (fun l i =>
    do a <- vec_index l i;
    do b <- vec_index l (length l - 1 - i);
    do (a, b) <- swap a b;
    do l <- vec_set l i a;
    vec_set l (length l - 1 - i) b) (seq 0 (length l / 2)) l.
