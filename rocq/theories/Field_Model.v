(** Model of f2c::types::Field (src/fields2cover/types/Field.cpp,
    include/fields2cover/types/Field.h). *)
From Coq Require Import Ascii String ZArith Bool Arith List.
From Verif Require Import Outcome Num Point_Model Container_Model Text_Model.
Import ListNotations.
Local Open Scope nat_scope.

(** ** Coordinate systems as texts *)

(** Field::isCoordSystemUTM (src/fields2cover/types/Field.cpp:90-92). *)
Definition isCoordSystemUTM (crs : text) : bool :=
  match find_text (txt "UTM:") crs with Some _ => true | None => false end.

(** The expression UTM[^0-9A-Za-z]*(\d+\w)[^\w]* of src/fields2cover/types/Field.cpp:102. *)
Definition utm_regex : list item :=
  word (txt "UTM") ++
  [Many false (fun c => negb (is_alnum c)); One true is_digit; Many true is_digit; One true is_word;
   Many false (fun c => negb (is_word c))].

(** Field::getUTMCoordSystem(coord_sys, if_not_found) (src/fields2cover/types/Field.cpp:98-106). *)
Definition getUTMCoordSystem (crs if_not_found : text) : text :=
  match regex_search utm_regex crs with Some m => m | None => if_not_found end.

(** The expression datum[^0-9A-Za-z]*([0-9A-Za-z]+) of src/fields2cover/types/Field.cpp:112. *)
Definition datum_regex : list item :=
  word (txt "datum") ++ [Many false (fun c => negb (is_alnum c)); One true is_alnum; Many true is_alnum].

(** Field::getUTMDatum(coord_sys, if_not_found) (src/fields2cover/types/Field.cpp:108-116). *)
Definition getUTMDatum (crs if_not_found : text) : text :=
  match regex_search datum_regex crs with Some m => m | None => if_not_found end.

(** The default arguments (include/fields2cover/types/Field.h:47-50). *)
Definition utm_default : text := [].
(** include/fields2cover/types/Field.h:49-50. *)
Definition datum_default : text := txt "etrs89".

(** Field::isCoordSystemEPSG (src/fields2cover/types/Field.cpp:126-128). *)
Definition isCoordSystemEPSG (crs : text) : bool :=
  match find_text (txt "EPSG:") crs with Some _ => true | None => false end.

(** Field::getEPSGCoordSystem (src/fields2cover/types/Field.cpp:134-137). *)
Definition getEPSGCoordSystem (crs : text) : outcome Z :=
  if isCoordSystemEPSG crs then do t <- substr crs 5 None; stoi t else Ok (-1)%Z.

(** Field::getUTMZone (src/fields2cover/types/Field.cpp:164-166). *)
Definition getUTMZone (crs : text) : outcome text := substr (getUTMCoordSystem crs utm_default) 0 (Some 2).

(** Field::getUTMHemisphere (src/fields2cover/types/Field.cpp:172-181). *)
Definition getUTMHemisphere (crs : text) : outcome text :=
  do h <- substr (getUTMCoordSystem crs utm_default) 2 (Some 1);
  Ok (match h with
      | [c] => if Ascii.eqb c "n" || Ascii.eqb c "N" then txt "+north"
               else if Ascii.eqb c "s" || Ascii.eqb c "S" then txt "+south"
               else []
      | _ => []
      end).

Section Field.
  Variable N : Num.
  (** The text round trip of clone() (Container_Model,
      include/fields2cover/types/Geometries_impl.hpp:18-23). *)
  Variable wkt : point N -> point N.

  (** The members of include/fields2cover/types/Field.h:67-73. *)
  Record field := mkField { f_id : text; f_crs : text; f_prev : text; f_ref : point N; f_cells : cells N }.

  (** Cells::getCellBorder (src/fields2cover/types/Cells.cpp:116-119): getGeometryRef and
      getExteriorRing give null pointers that are dereferenced. *)
  Definition cells_getCellBorder (c : cells N) (i : nat) : outcome (line N) :=
    do x <- vec_index c i; vec_index x 0.

  (** LinearRing::startPoint (src/fields2cover/types/LinearRing.cpp:113-115). *)
  Definition ring_startPoint (r : line N) : outcome (point N) := line_getGeometry N r 0.

  (** Field::Field() (src/fields2cover/types/Field.cpp:12). *)
  Definition field_default : field := mkField [] [] [] (p_default N) [].

  (** Field::Field(cells, id) (src/fields2cover/types/Field.cpp:13-18). *)
  Definition field_make (c : cells N) (id : text) : outcome field :=
    do ref <- (if negb (cells_isEmpty N c) then do b <- cells_getCellBorder c 0; ring_startPoint b
               else Ok (p_default N));
    Ok (mkField id [] [] ref (cells_sub N wkt c ref)).

  (** The setters (src/fields2cover/types/Field.cpp:32-34, 40-42, 48-50, 60-62, 72-74). *)
  Definition field_setId (f : field) (id : text) : field := mkField id (f_crs f) (f_prev f) (f_ref f) (f_cells f).
  (** src/fields2cover/types/Field.cpp:40-42. *)
  Definition field_setCRS (f : field) (crs : text) : field := mkField (f_id f) crs (f_prev f) (f_ref f) (f_cells f).
  (** src/fields2cover/types/Field.cpp:48-50. *)
  Definition field_setPrevCRS (f : field) (crs : text) : field := mkField (f_id f) (f_crs f) crs (f_ref f) (f_cells f).
  (** src/fields2cover/types/Field.cpp:60-62. *)
  Definition field_setRefPoint (f : field) (p : point N) : field := mkField (f_id f) (f_crs f) (f_prev f) p (f_cells f).
  (** src/fields2cover/types/Field.cpp:72-74; the cells are shared with the argument. *)
  Definition field_setField (f : field) (c : cells N) : field := mkField (f_id f) (f_crs f) (f_prev f) (f_ref f) c.

  (** Field::clone (src/fields2cover/types/Field.cpp:76-80). *)
  Definition field_clone (f : field) : outcome field :=
    do g <- field_make (cells_add N wkt (f_cells f) (f_ref f)) (f_id f);
    Ok (field_setCRS g (f_crs f)).

  (** Field::isEmpty (src/fields2cover/types/Field.cpp:86-88). *)
  Definition field_isEmpty (f : field) : bool := cells_isEmpty N (f_cells f).

  (** Field::getCellsAbsPosition (src/fields2cover/types/Field.cpp:160-162). *)
  Definition getCellsAbsPosition (f : field) : cells N := cells_add N wkt (f_cells f) (f_ref f).

  (** Field::setEPSGCoordSystem (src/fields2cover/types/Field.cpp:143-145). *)
  Definition setEPSGCoordSystem (f : field) (epsg : Z) : field := field_setCRS f (txt "EPSG:" ++ to_string epsg).

  (** Field::setUTMCoordSystem(utm) (src/fields2cover/types/Field.cpp:147-151). *)
  Definition setUTMCoordSystem (f : field) (utm : text) : field :=
    field_setCRS f (txt "UTM:" ++ getUTMCoordSystem utm utm ++ txt " datum:" ++ getUTMDatum utm datum_default).

  (** Field::setUTMCoordSystem(utm, datum) (src/fields2cover/types/Field.cpp:153-158). *)
  Definition setUTMCoordSystem2 (f : field) (utm datum : text) : field :=
    field_setCRS f (txt "UTM:" ++ getUTMCoordSystem utm utm ++ txt " datum:" ++ getUTMDatum datum datum).
End Field.
Arguments mkField {N}. Arguments f_id {N}. Arguments f_crs {N}. Arguments f_prev {N}. Arguments f_ref {N}. Arguments f_cells {N}.
Arguments field_setId {N}. Arguments field_setCRS {N}. Arguments field_setPrevCRS {N}. Arguments field_setRefPoint {N}.
Arguments field_setField {N}. Arguments field_isEmpty {N}.
Arguments setEPSGCoordSystem {N}. Arguments setUTMCoordSystem {N}. Arguments setUTMCoordSystem2 {N}.
