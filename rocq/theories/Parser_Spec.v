(** Specification vocabulary for the importers, independent of the model's functions
    (only the types of documents come from the model). *)
From Coq Require Import Ascii String ZArith Bool Arith Reals List.
From Verif Require Import Num Point_Model Text_Spec Container_Spec Parser_Model.
Import ListNotations.

(** The texts of [l] with [sep] between them. *)
Fixpoint joined (sep : list ascii) (l : list (list ascii)) : list ascii :=
  match l with
  | [] => []
  | [a] => a
  | a :: l => a ++ sep ++ joined sep l
  end.

(** [r] is [s] with the occurrences of [pat], from the left, replaced by [rep]. *)
Inductive replaced (pat rep : list ascii) : list ascii -> list ascii -> Prop :=
| rep_done : forall s, ~ occurs pat s -> replaced pat rep s s
| rep_step : forall a b r, (forall a' b', a ++ pat ++ b = a' ++ pat ++ b' -> (length a <= length a')%nat) ->
    replaced pat rep b r -> replaced pat rep (a ++ pat ++ b) (a ++ rep ++ r).

(** The character [c] does not occur in [s]. *)
Definition free (c : ascii) (s : list ascii) : Prop := ~ In c s.

(** The white space of XML. *)
Definition blank (c : ascii) : Prop := In (nat_of_ascii c) [9; 10; 13; 32]%nat.

(** The parts of [s] between the characters with property [p], as WKT separates
    positions by commas. *)
Fixpoint parts (p : ascii -> bool) (s : list ascii) : list (list ascii) :=
  match s with
  | [] => [[]]
  | c :: s =>
    if p c then [] :: parts p s
    else match parts p s with [] => [[c]] | w :: l => (c :: w) :: l end
  end.

(** The first element with a property. *)
Definition first_with {A} (P : A -> Prop) (l : list A) (x : A) : Prop :=
  exists a b, l = a ++ x :: b /\ P x /\ forall y, In y a -> ~ P y.
(** [c] is the first child of [e] called [k]. *)
Definition child (e : xml) (k : string) (c : xml) : Prop := exists n a t l, e = Elem n a t l /\
  first_with (fun x => exists a t l, x = Elem (list_ascii_of_string k) a t l) l c.
(** [e] has the attribute [k] with value [v]. *)
Definition attribute (e : xml) (k : string) (v : list ascii) : Prop := exists n a t l, e = Elem n a t l /\
  first_with (fun p => fst p = list_ascii_of_string k) a (list_ascii_of_string k, v).
(** The attribute, or the empty text if there is none. *)
Definition attribute_or_empty (e : xml) (k : string) (v : list ascii) : Prop := attribute e k v \/
  v = [] /\ exists n a t l, e = Elem n a t l /\ forall p, In p a -> fst p <> list_ascii_of_string k.
(** [s] is the text of [e]. *)
Definition content (e : xml) (s : list ascii) : Prop := exists n a l, e = Elem n a (Some s) l.

(** A GML parcel with identifier, coordinate system and coordinate text. *)
Definition gml_parcel (e : xml) (id crs coords : list ascii) : Prop :=
  exists f g p b r c, child e "Field" f /\ child f "geometry" g /\ child g "gml:Polygon" p /\
    child p "gml:outerBoundaryIs" b /\ child b "gml:LinearRing" r /\ child r "gml:coordinates" c /\
    attribute_or_empty e "id" id /\ attribute p "srsName" crs /\ content c coords.

(** [v] is the member [k] of the object [j]. *)
Definition member (j : json) (k : string) (v : json) : Prop :=
  exists l, j = JObj l /\ NoDup (map fst l) /\ In (list_ascii_of_string k, v) l.
(** A number of the document. *)
Definition number (j : json) (x : R) : Prop := (exists z, j = JInt z /\ x = IZR z) \/ j = JFloat x.
(** A position with two or three coordinates; the height is 0 if left out. *)
Definition position (j : json) (p : pt) : Prop :=
  (exists a b, j = JArr [a; b] /\ number a (px p) /\ number b (py p) /\ pz p = 0%R) \/
  (exists a b c, j = JArr [a; b; c] /\ number a (px p) /\ number b (py p) /\ number c (pz p)).
(** A list of positions. *)
Definition positions (j : json) (l : list pt) : Prop := exists items, j = JArr items /\ Forall2 position items l.
(** The value of "features". *)
Definition features (j : json) (l : list json) : Prop := member j "features" (JArr l).
(** A polygon with its rings. *)
Definition polygon (j : json) (rings : list (list pt)) : Prop :=
  exists g rs, member j "geometry" g /\ member g "coordinates" (JArr rs) /\ Forall2 positions rs rings.
(** The member [k] of the properties. *)
Definition property (j : json) (k : string) (v : json) : Prop := exists p, member j "properties" p /\ member p k v.

(** [r'] is [r], closed by its first point if it was not closed. *)
Definition closing {A} (r r' : list A) : Prop :=
  closed r' /\ (r' = r \/ ~ closed r /\ exists p m, r = p :: m /\ r' = r ++ [p]).
