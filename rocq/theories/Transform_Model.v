(** Model of f2c::Transform (src/fields2cover/utils/transformation.cpp,
    include/fields2cover/utils/transformation.h), in exact arithmetic.  Building
    transformations from two spatial references is GDAL's; it is an oracle here. *)
From Coq Require Import Ascii String ZArith Bool Arith Reals List.
From Verif Require Import Outcome Num Point_Model Angle_Model Swath_Model Route_Model Path_Model Container_Model
  Text_Model Field_Model.
Import ListNotations.
Local Open Scope nat_scope.

Notation rfield := (field RNum).
Notation rswath := (swath rpoint R).
Notation rstate := (pstate RNum).

(** What createSptRef asks OGRSpatialReference to import
    (src/fields2cover/utils/transformation.cpp:251,260): an EPSG code, a PROJ text, or nothing.  The return
    values of importFromEPSG and importFromProj4 are ignored there. *)
Inductive sptref := SEpsg (n : Z) | SProj (t : text) | SNone.

(** Lower case of ASCII letters (for src/fields2cover/utils/transformation.cpp:256). *)
Definition lower (c : ascii) : ascii :=
  if (65 <=? nat_of_ascii c) && (nat_of_ascii c <=? 90) then ascii_of_nat (nat_of_ascii c + 32) else c.
(** boost::iequals (src/fields2cover/utils/transformation.cpp:256). *)
Definition iequals (a b : text) : bool := if list_eq_dec ascii_dec (map lower a) (map lower b) then true else false.

(** Transform::createSptRef (src/fields2cover/utils/transformation.cpp:241-269). *)
Definition createSptRef (crs : text) (fail_silently : bool) : outcome sptref :=
  if (match crs with [] => true | _ => false end) && negb fail_silently then Throw InvalidArgument
  else if isCoordSystemEPSG crs then do n <- getEPSGCoordSystem crs; Ok (SEpsg n)
  else if isCoordSystemUTM crs then
    do z <- getUTMZone crs;
    do h <- getUTMHemisphere crs;
    Ok (SProj (txt "+proj=utm +zone=" ++ z ++ txt " " ++ h ++
          (if iequals (getUTMDatum crs datum_default) (txt "ETRS89")
           then txt " +ellps=GRS80 +towgs84=0,0,0,0,0,0,0 +type=crs"
           else txt " +datum=" ++ getUTMDatum crs datum_default) ++
          txt " +units=m +no_defs "))
  else if negb fail_silently then Throw InvalidArgument
  else Ok SNone.

Section Transform.
  (** OGRCreateCoordinateTransformation (src/fields2cover/utils/transformation.cpp:278) together with
      OGRGeometry::transform, taken to act on every point and to succeed; a null
      transformation is UB, since it is dereferenced. *)
  Variable mk : sptref -> sptref -> outcome (rpoint -> rpoint).
  (** The text round trip of clone() (Container_Model,
      include/fields2cover/types/Geometries_impl.hpp:18-23). *)
  Variable wkt : rpoint -> rpoint.

  (** Transform::generateCoordTransf (src/fields2cover/utils/transformation.cpp:12-18); the arguments are
      evaluated from left to right here, which matters only for which exception is
      thrown. *)
  Definition generateCoordTransf (from to : text) : outcome (rpoint -> rpoint) :=
    do a <- createSptRef from false;
    do b <- createSptRef to false;
    mk a b.

  (** Transform::transform(t, from, to) for points: Point::clone copies the
      coordinates (include/fields2cover/utils/transformation.h:90-96). *)
  Definition transform_point (p : rpoint) (from to : text) : outcome rpoint :=
    do ct <- generateCoordTransf from to; Ok (ct p).
  (** The same for lines, cloned through text (include/fields2cover/utils/transformation.h:90-96). *)
  Definition transform_line (l : list rpoint) (from to : text) : outcome (list rpoint) :=
    do ct <- generateCoordTransf from to; Ok (map ct (line_clone RNum wkt l)).
  (** The same for cells, whose rings are copied by importFromWkt
      (include/fields2cover/utils/transformation.h:90-96). *)
  Definition transform_cell (c : list (list rpoint)) (from to : text) : outcome (list (list rpoint)) :=
    do ct <- generateCoordTransf from to; Ok (map (fun r => map ct (line_clone RNum wkt r)) c).
  (** Transform::transform(t, ref_point, from, to) for lines (include/fields2cover/utils/transformation.h:84-88). *)
  Definition transform_line_ref (l : list rpoint) (ref : rpoint) (from to : text) : outcome (list rpoint) :=
    transform_line (line_image RNum (fun p => p_add RNum p ref) l) from to.

  (** Functions on a field passed by reference give the field as it is afterwards,
      also when they throw (src/fields2cover/utils/transformation.cpp:20-33). *)
  Definition on_field := (rfield * outcome unit)%type.
  (** The statement [s] followed by [k], as in src/fields2cover/utils/transformation.cpp:20-33. *)
  Definition andThen (s : on_field) (k : rfield -> on_field) : on_field :=
    match snd s with Ok _ => k (fst s) | _ => s end.
  (** Evaluating an expression, then the rest, as in src/fields2cover/utils/transformation.cpp:20-33. *)
  Definition eval {A} (f : rfield) (o : outcome A) (k : A -> on_field) : on_field :=
    match o with Ok a => k a | Throw e => (f, Throw e) | UB => (f, UB) | Hang => (f, Hang) end.

  (** Transform::transform(field, to) (src/fields2cover/utils/transformation.cpp:20-33). *)
  Definition transform_field (f : rfield) (to : text) : on_field :=
    let finish (f : rfield) : on_field := (field_setCRS (field_setPrevCRS f (f_crs f)) to, Ok tt) in
    if negb (field_isEmpty f) then
      let f1 := field_setField f (cells_add RNum wkt (f_cells f) (f_ref f)) in
      eval f1 (generateCoordTransf (f_crs f1) to) (fun ct =>
      let f2 := field_setField f1 (map (map (map ct)) (f_cells f1)) in
      eval f2 (do b <- cells_getCellBorder RNum (f_cells f2) 0; ring_startPoint RNum b) (fun ref =>
      let f3 := field_setRefPoint f2 ref in
      finish (field_setField f3 (cells_sub RNum wkt (f_cells f3) (f_ref f3)))))
    else
      eval f (transform_point (f_ref f) (f_crs f) to) (fun ref => finish (field_setRefPoint f ref)).

  (** The European box of src/fields2cover/utils/transformation.cpp:155-158, 170-173. *)
  Definition in_europe (p : rpoint) : bool :=
    Rltb (px p) (3288 / 100) && Rltb (- (161 / 10)) (px p) && Rltb (py p) (8473 / 100) && Rltb (4018 / 100) (py p).
  (** src/fields2cover/utils/transformation.cpp:175-178. *)
  Definition in_world (p : rpoint) : bool :=
    Rltb (px p) 180 && Rltb (-180) (px p) && Rltb (py p) 90 && Rltb (-90) (py p).

  (** The name of the system (src/fields2cover/utils/transformation.cpp:187-191); the conversion to size_t of a
      number that does not fit is undefined. *)
  Definition utm_name (p : rpoint) (crs : text) : outcome text :=
    let z := (Int_part ((px p + 180) / 6) + 1)%Z in
    if ((z <? 0) || (2 ^ 64 <=? z))%Z then UB
    else Ok (txt "UTM:" ++ to_string z ++ (if Rltb 0 (py p) then txt "N" else txt "S") ++ txt " datum:" ++
             (if list_eq_dec ascii_dec crs (txt "EPSG:4258") then txt "ETRS89" else txt "WGS84")).

  (** Comparison with a literal (src/fields2cover/utils/transformation.cpp:152). *)
  Definition is_text (a b : text) : bool := if list_eq_dec ascii_dec a b then true else false.

  (** Transform::transformToUTM (src/fields2cover/utils/transformation.cpp:149-194). *)
  Definition transformToUTM (f : rfield) (is_etrs89_opt : bool) : on_field :=
    let crs := f_crs f in
    let nil := match crs with [] => true | _ => false end in
    let last (f : rfield) (field_crs : text) : on_field :=
      eval f (utm_name (f_ref f) (f_crs f)) (fun utm_zone =>
      andThen (transform_field f utm_zone) (fun f => (field_setPrevCRS f field_crs, Ok tt))) in
    if negb nil && negb (is_text crs (txt "EPSG:4258")) && negb (is_text crs (txt "EPSG:4326")) then
      andThen (transform_field f (txt "EPSG:4326")) (fun f =>
      andThen (if is_etrs89_opt && in_europe (f_ref f) then transform_field f (txt "EPSG:4258") else (f, Ok tt)) (fun f =>
      last f crs))
    else if nil then
      andThen (if p_eq RNum (f_ref f) (p_default RNum) then eval f (field_clone RNum wkt f) (fun g => (g, Ok tt)) else (f, Ok tt)) (fun f =>
      if p_eq RNum (f_ref f) (p_default RNum) then (f, Throw OutOfRange)
      else if is_etrs89_opt && in_europe (f_ref f) then
        let f := field_setCRS f (txt "EPSG:4258") in last f (f_crs f)
      else if in_world (f_ref f) then
        let f := field_setCRS f (txt "EPSG:4326") in last f (f_crs f)
      else (f, Throw InvalidArgument))
    else last f crs.

  (** Transform::transformToPrevCRS(field) (src/fields2cover/utils/transformation.cpp:197-203). *)
  Definition transformToPrevCRS (f : rfield) : on_field :=
    match f_prev f with [] => (f, Throw InvalidArgument) | _ => transform_field f (f_prev f) end.

  (** Transform::getRefPointInGPS (src/fields2cover/utils/transformation.cpp:235-239). *)
  Definition getRefPointInGPS (f : rfield) : outcome rpoint :=
    do ct <- generateCoordTransf (f_crs f) (txt "EPSG:4326"); Ok (ct (f_ref f)).

  (** The width test of the constructor of swaths (src/fields2cover/types/Swath.cpp:172). *)
  Definition w_nonpos (w : R) : bool := Rleb w 0.

  (** Transform::transformSwathWithFieldRef (src/fields2cover/utils/transformation.cpp:88-93): the type is not
      passed on. *)
  Definition transformSwathWithFieldRef (s : rswath) (f : rfield) (to : text) : outcome rswath :=
    do l <- transform_line_ref (sw_path s) (f_ref f) (f_crs f) to;
    swath_new w_nonpos 0%R l (sw_width s) (sw_id s) MAINLAND.
  (** Transform::transformSwathsWithFieldRef (src/fields2cover/utils/transformation.cpp:95-103). *)
  Definition transformSwathsWithFieldRef (l : list rswath) (f : rfield) (to : text) : outcome (list rswath) :=
    mapM (fun s => transformSwathWithFieldRef s f to) l.
  (** Transform::transformSwath (src/fields2cover/utils/transformation.cpp:133-137). *)
  Definition transformSwath (s : rswath) (from to : text) : outcome rswath :=
    do l <- transform_line (sw_path s) from to;
    swath_new w_nonpos 0%R l (sw_width s) (sw_id s) MAINLAND.
  (** Transform::transformSwaths (src/fields2cover/utils/transformation.cpp:123-131). *)
  Definition transformSwaths (l : list rswath) (from to : text) : outcome (list rswath) :=
    mapM (fun s => transformSwath s from to) l.

  (** Transform::transformMultiPointWithFieldRef (src/fields2cover/utils/transformation.cpp:76-86). *)
  Definition transformMultiPointWithFieldRef (mp : list rpoint) (f : rfield) (to : text) : outcome (list rpoint) :=
    do ct <- generateCoordTransf (f_crs f) to;
    Ok (fold_left (fun new_mp p => new_mp ++ [ct (p_add RNum p (f_ref f))]) mp []).

  (** Transform::transformRouteWithFieldRef (src/fields2cover/utils/transformation.cpp:35-48). *)
  Definition transformRouteWithFieldRef (r : route rpoint R) (f : rfield) (to : text) : outcome (route rpoint R) :=
    do r0 <- r_clone w_nonpos 0%R wkt r;
    do _ <- generateCoordTransf (f_crs f) to;
    do r1 <- foldM (fun r i => do s <- r_getSwaths r i; do s' <- transformSwathsWithFieldRef s f to; r_setSwaths r i s')
      (seq 0 (r_sizeVectorSwaths r0)) r0;
    foldM (fun r i => do c <- r_getConnection r i; do c' <- transformMultiPointWithFieldRef c f to; r_setConnection r i c')
      (seq 0 (r_sizeConnections r1)) r1.

  (** The loop of src/fields2cover/utils/transformation.cpp:67-70. *)
  Fixpoint relink (p : list rstate) : list rstate :=
    match p with
    | s :: ((t :: _) as rest) =>
      mkPS (N := RNum) (ps_point s) (angleFromPoint (p_sub RNum (ps_point t) (ps_point s))) (p_distance (ps_point s) (ps_point t))
        (ps_dir s) (ps_type s) (ps_vel s) :: relink rest
    | _ => p
    end.
  (** s.point = g(s.point) (src/fields2cover/utils/transformation.cpp:50-74). *)
  Definition move_state (g : rpoint -> rpoint) (s : rstate) : rstate :=
    mkPS (N := RNum) (g (ps_point s)) (ps_angle s) (ps_len s) (ps_dir s) (ps_type s) (ps_vel s).

  (** Transform::transformPathWithFieldRef (src/fields2cover/utils/transformation.cpp:50-74). *)
  Definition transformPathWithFieldRef (p : list rstate) (f : rfield) (to : text) : outcome (list rstate) :=
    match p with
    | [] => Ok p
    | _ =>
      do s_end <- vec_back p;
      do e <- path_atEnd RNum cos sin p;
      let new_path :=
        if Rltb 0 (ps_len s_end)
        then path_addState RNum p (mkPS (N := RNum) e (ps_angle s_end) 0%R (ps_dir s_end) (ps_type s_end) (ps_vel s_end))
        else p in
      do ct <- generateCoordTransf (f_crs f) to;
      Ok (relink (map (move_state (fun q => ct (p_add RNum q (f_ref f)))) new_path))
    end.

  (** Transform::transformPath (src/fields2cover/utils/transformation.cpp:139-147). *)
  Definition transformPath (p : list rstate) (from to : text) : outcome (list rstate) :=
    do ct <- generateCoordTransf from to; Ok (map (move_state ct) p).

  (** Transform::transformToPrevCRS for routes, paths and swaths (src/fields2cover/utils/transformation.cpp:205-208,
      210-213, 225-228). *)
  Definition route_toPrevCRS (r : route rpoint R) (f : rfield) : outcome (route rpoint R) :=
    transformRouteWithFieldRef r f (f_prev f).
  (** src/fields2cover/utils/transformation.cpp:210-213. *)
  Definition path_toPrevCRS (p : list rstate) (f : rfield) : outcome (list rstate) := transformPathWithFieldRef p f (f_prev f).
  (** src/fields2cover/utils/transformation.cpp:225-228. *)
  Definition swath_toPrevCRS (s : rswath) (f : rfield) : outcome rswath := transformSwathWithFieldRef s f (f_prev f).

  (** A strip is a name and a cell (src/fields2cover/types/Strip.cpp); Transform::transformStrip (src/fields2cover/utils/transformation.cpp:105-111). *)
  Definition transformStrip (s : text * list (list rpoint)) (from to : text) : outcome (text * list (list rpoint)) :=
    do c <- transform_cell (snd s) from to; Ok (fst s, c).
  (** Transform::transformStrips (src/fields2cover/utils/transformation.cpp:113-121). *)
  Definition transformStrips (l : list (text * list (list rpoint))) (from to : text) : outcome (list (text * list (list rpoint))) :=
    mapM (fun s => transformStrip s from to) l.
  (** src/fields2cover/utils/transformation.cpp:215-218. *)
  Definition strip_toPrevCRS (s : text * list (list rpoint)) (f : rfield) : outcome (text * list (list rpoint)) :=
    transformStrip s (f_crs f) (f_prev f).
  (** src/fields2cover/utils/transformation.cpp:220-223. *)
  Definition strips_toPrevCRS (l : list (text * list (list rpoint))) (f : rfield) : outcome (list (text * list (list rpoint))) :=
    transformStrips l (f_crs f) (f_prev f).
  (** src/fields2cover/utils/transformation.cpp:230-233. *)
  Definition swaths_toPrevCRS (l : list rswath) (f : rfield) : outcome (list rswath) :=
    transformSwathsWithFieldRef l f (f_prev f).
End Transform.
