(** Model of f2c::Parser (src/fields2cover/utils/parser.cpp), in exact arithmetic.
    Reading files, XML and JSON syntax (tinyxml2, nlohmann::json) and the WKT parser of
    GDAL are outside the model: the functions below take the parsed document, and
    the WKT parser is an oracle. *)
From Coq Require Import Ascii String ZArith Bool Arith Reals List.
From Verif Require Import Outcome Num Point_Model Angle_Model Swath_Model Container_Model
  Text_Model Field_Model Transform_Model.
Import ListNotations.
Local Open Scope nat_scope.

(** ** GML *)

(** The loop of findAndReplaceAll (src/fields2cover/utils/parser.cpp:59-62) at position
    [pos] of find's result; [Hang] when the fuel runs out. *)
Fixpoint replace_loop (fuel : nat) (data pat rep : text) (pos : option nat) : outcome text :=
  match pos with
  | None => Ok data
  | Some pos =>
    match fuel with
    | 0 => Hang
    | S fuel =>
      do data <- replace data pos (length pat) rep;
      replace_loop fuel data pat rep (find_from pat data (pos + length rep))
    end
  end.

(** findAndReplaceAll (src/fields2cover/utils/parser.cpp:56-64). *)
Definition findAndReplaceAll (data pat rep : text) : outcome text :=
  replace_loop (length data) data pat rep (find_text pat data).

(** The text given to createFromWkt (src/fields2cover/utils/parser.cpp:65-68). *)
Definition gml_to_wkt (coords : text) : outcome text :=
  do c <- findAndReplaceAll coords (txt ",") (txt ";");
  do c <- findAndReplaceAll c (txt " ") (txt ", ");
  do c <- findAndReplaceAll c (txt ";") (txt " ");
  Ok (txt "POLYGON ((" ++ c ++ txt "))").

(** An XML element as tinyxml2 gives it: name, attributes, text at its start, child
    elements (used at src/fields2cover/utils/parser.cpp:30-55). *)
Inductive xml := Elem (name : text) (attrs : list (text * text)) (content : option text) (children : list xml).
(** XMLElement::Name, compared by FirstChildElement (src/fields2cover/utils/parser.cpp:43). *)
Definition x_name (e : xml) : text := match e with Elem n _ _ _ => n end.
(** XMLElement::Attribute (src/fields2cover/utils/parser.cpp:38,49); None is nullptr. *)
Definition x_attr (e : xml) (k : text) : option text :=
  match e with Elem _ a _ _ => option_map snd (find (fun p => is_text (fst p) k) a) end.
(** XMLElement::GetText (src/fields2cover/utils/parser.cpp:55); None is nullptr. *)
Definition x_text (e : xml) : option text := match e with Elem _ _ t _ => t end.
(** XMLNode::FirstChildElement (src/fields2cover/utils/parser.cpp:43-54); None is nullptr. *)
Definition x_child (e : xml) (k : text) : option xml :=
  match e with Elem _ _ _ c => find (fun x => is_text (x_name x) k) c end.
(** Use of a pointer that may be null, as the calls on the results of FirstChildElement
    and the std::string made from Attribute and GetText
    (src/fields2cover/utils/parser.cpp:45-55). *)
Definition deref {A} (o : option A) : outcome A := match o with Some a => Ok a | None => UB end.

Section Gml.
  (** The text round trip of clone() (Container_Model,
      include/fields2cover/types/Geometries_impl.hpp:18-23). *)
  Variable wkt : rpoint -> rpoint.
  (** OGRGeometryFactory::createFromWkt on a text of the shape POLYGON ((…)); None when it
      leaves the geometry null (src/fields2cover/utils/parser.cpp:71). *)
  Variable fromWkt : text -> option (cell RNum).

  (** Parser::importFieldGml (src/fields2cover/utils/parser.cpp:21-78).  A null geometry is dereferenced by the
      constructor of Cells (src/fields2cover/types/Cells.cpp:19-20). *)
  Definition importFieldGml (root : option xml) (fail_silently : bool) : outcome rfield :=
    match root with
    | None => Throw InvalidArgument
    | Some parcel =>
      let id := match x_attr parcel (txt "id") with Some v => v | None => [] end in
      do p_field <- deref (x_child parcel (txt "Field"));
      do geometry <- deref (x_child p_field (txt "geometry"));
      do polygon <- deref (x_child geometry (txt "gml:Polygon"));
      do coord_sys <- deref (x_attr polygon (txt "srsName"));
      do boundary <- deref (x_child polygon (txt "gml:outerBoundaryIs"));
      do ring <- deref (x_child boundary (txt "gml:LinearRing"));
      do coordinates <- deref (x_child ring (txt "gml:coordinates"));
      do coords <- deref (x_text coordinates);
      do coords <- gml_to_wkt coords;
      do spt_ref <- createSptRef coord_sys fail_silently;
      do geom <- deref (fromWkt coords);
      do f <- field_make RNum wkt [geom] id;
      Ok (field_setCRS f coord_sys)
    end.

  (** Parser::importGml (src/fields2cover/utils/parser.cpp:17-19). *)
  Definition importGml (root : option xml) (fields : list rfield) : outcome (list rfield) :=
    do f <- importFieldGml root false; Ok (fields ++ [f]).
End Gml.

(** ** JSON *)

(** A JSON value of nlohmann::json; the members of an object in the order of its map
    (used at src/fields2cover/utils/parser.cpp:81-152). *)
Inductive json :=
| JNull | JBool (b : bool) | JInt (z : Z) | JFloat (x : R) | JStr (s : text)
| JArr (l : list json) | JObj (l : list (text * json)).

(** json::size (src/fields2cover/utils/parser.cpp:82,84,100). *)
Definition j_size (j : json) : nat :=
  match j with JNull => 0 | JArr l => length l | JObj l => length l | _ => 1 end.
(** Range-for over a value (src/fields2cover/utils/parser.cpp:93,111,129,131,145): the elements
    of an array, the members of an object, a scalar itself. *)
Definition j_items (j : json) : list json :=
  match j with JNull => [] | JArr l => l | JObj l => map snd l | _ => [j] end.
(** The member of an object with a key (nlohmann::json, for
    src/fields2cover/utils/parser.cpp:99,111). *)
Definition j_member (l : list (text * json)) (k : text) : option json :=
  option_map snd (find (fun p => is_text (fst p) k) l).
(** operator[](key) const (src/fields2cover/utils/parser.cpp:99): undefined when the key is
    missing, type_error unless an object. *)
Definition j_key_const (j : json) (k : text) : outcome json :=
  match j with JObj l => deref (j_member l k) | _ => Throw TypeError end.
(** operator[](key) (src/fields2cover/utils/parser.cpp:111,114,122,129,131,135,136,145,147): a missing key is
    added with value null, and null becomes an object. *)
Definition j_key (j : json) (k : text) : outcome json :=
  match j with
  | JObj l => Ok (match j_member l k with Some v => v | None => JNull end)
  | JNull => Ok JNull
  | _ => Throw TypeError
  end.
(** operator[](index) const (src/fields2cover/utils/parser.cpp:83,85). *)
Definition j_idx_const (j : json) (i : nat) : outcome json :=
  match j with JArr l => vec_index l i | _ => Throw TypeError end.
(** operator[](index) (src/fields2cover/utils/parser.cpp:101,122): an array is filled with
    nulls up to the index, and null becomes an array. *)
Definition j_idx (j : json) (i : nat) : outcome json :=
  match j with
  | JArr l => Ok (match nth_error l i with Some v => v | None => JNull end)
  | JNull => Ok JNull
  | _ => Throw TypeError
  end.
(** Conversion to double (src/fields2cover/utils/parser.cpp:83,85,135). *)
Definition j_double (j : json) : outcome R :=
  match j with JInt z => Ok (IZR z) | JFloat x => Ok x | _ => Throw TypeError end.
(** Conversion to int (src/fields2cover/utils/parser.cpp:136): integers are reduced to 32 bits,
    other numbers are cut at the point, undefined outside the range of int. *)
Definition j_int (j : json) : outcome Z :=
  match j with
  | JInt z => Ok ((z + 2 ^ 31) mod 2 ^ 32 - 2 ^ 31)%Z
  | JFloat x =>
    let t := if Rleb 0 x then Int_part x else (- Int_part (- x))%Z in
    if (- 2 ^ 31 <=? t)%Z && (t <? 2 ^ 31)%Z then Ok t else UB
  | JBool b => Ok (if b then 1%Z else 0%Z)
  | _ => Throw TypeError
  end.
(** Conversion to std::string (src/fields2cover/utils/parser.cpp:114,147). *)
Definition j_string (j : json) : outcome text :=
  match j with JStr s => Ok s | _ => Throw TypeError end.

(** getPointFromJson (src/fields2cover/utils/parser.cpp:81-88). *)
Definition getPointFromJson (ps : json) : outcome rpoint :=
  if j_size ps =? 3 then
    do x <- j_idx_const ps 0; do x <- j_double x;
    do y <- j_idx_const ps 1; do y <- j_double y;
    do z <- j_idx_const ps 2; do z <- j_double z;
    Ok (mkPoint (N := RNum) x y z)
  else if j_size ps =? 2 then
    do x <- j_idx_const ps 0; do x <- j_double x;
    do y <- j_idx_const ps 1; do y <- j_double y;
    Ok (mkPoint (N := RNum) x y 0%R)
  else Ok (p_default RNum).

(** jsonToF2CRing and the loop of importSwathsJson (src/fields2cover/utils/parser.cpp:91-97, 130-133). *)
Definition jsonToLine (j : json) : outcome (line RNum) :=
  foldM (fun l ps => do p <- getPointFromJson ps; Ok (l ++ [p])) (j_items j) [].

Section Json.
  (** The text round trip of clone() (Container_Model,
      include/fields2cover/types/Geometries_impl.hpp:18-23). *)
  Variable wkt : rpoint -> rpoint.

  (** getCellFromJson (src/fields2cover/utils/parser.cpp:90-104). *)
  Definition getCellFromJson (imported_cell : json) : outcome (cell RNum) :=
    do g <- j_key_const imported_cell (txt "geometry");
    do rings <- j_key_const g (txt "coordinates");
    foldM (fun c i => do j <- j_idx rings i; do r <- jsonToLine j; Ok (cell_addRing RNum wkt c r))
      (seq 0 (j_size rings)) [].

  (** The body of the loop of importJson (src/fields2cover/utils/parser.cpp:112-114). *)
  Definition field_of_json (imported_cell : json) : outcome rfield :=
    do c <- getCellFromJson imported_cell;
    do p <- j_key imported_cell (txt "properties");
    do name <- j_key p (txt "Name");
    do name <- j_string name;
    field_make RNum wkt [c] name.

  (** The loop of importJson (src/fields2cover/utils/parser.cpp:111-115): the fields pushed
      before an exception stay in the vector. *)
  Fixpoint push_fields (features : list json) (fields : list rfield) : list rfield * outcome unit :=
    match features with
    | [] => (fields, Ok tt)
    | j :: features =>
      match field_of_json j with
      | Ok f => push_fields features (fields ++ [f])
      | Throw e => (fields, Throw e)
      | UB => (fields, UB)
      | Hang => (fields, Hang)
      end
    end.

  (** Parser::importJson (src/fields2cover/utils/parser.cpp:107-117). *)
  Definition importJson (imported_field : json) (fields : list rfield) : list rfield * outcome unit :=
    match j_key imported_field (txt "features") with
    | Ok features => push_fields (j_items features) fields
    | Throw e => (fields, Throw e)
    | UB => (fields, UB)
    | Hang => (fields, Hang)
    end.

  (** Parser::importCellJson (src/fields2cover/utils/parser.cpp:119-123). *)
  Definition importCellJson (imported_field : json) : outcome (cell RNum) :=
    do features <- j_key imported_field (txt "features");
    do j <- j_idx features 0;
    getCellFromJson j.

  (** The body of the loop of importSwathsJson (src/fields2cover/utils/parser.cpp:130-136).  The
      order of the two conversions is not fixed by the language. *)
  Definition swath_of_json (imported_swath : json) : outcome rswath :=
    do g <- j_key imported_swath (txt "geometry");
    do coordinates <- j_key g (txt "coordinates");
    do l <- jsonToLine coordinates;
    do p <- j_key imported_swath (txt "properties");
    do w <- j_key p (txt "width");
    do w <- j_double w;
    do i <- j_key p (txt "path_id");
    do i <- j_int i;
    swath_new w_nonpos 0%R l w i MAINLAND.

  (** Parser::importSwathsJson (src/fields2cover/utils/parser.cpp:125-139). *)
  Definition importSwathsJson (imported_swaths : json) : outcome (list rswath) :=
    do features <- j_key imported_swaths (txt "features");
    mapM swath_of_json (j_items features).

  (** The body of the loop of importStripsJson (src/fields2cover/utils/parser.cpp:146-149): the name and the
      cell of a strip. *)
  Definition strip_of_json (imported_strip : json) : outcome (text * cell RNum) :=
    do p <- j_key imported_strip (txt "properties");
    do name <- j_key p (txt "crop_id");
    do name <- j_string name;
    do c <- getCellFromJson imported_strip;
    Ok (name, c).

  (** Parser::importStripsJson (src/fields2cover/utils/parser.cpp:141-152). *)
  Definition importStripsJson (imported_strips : json) : outcome (list (text * cell RNum)) :=
    do features <- j_key imported_strips (txt "features");
    mapM strip_of_json (j_items features).
End Json.
