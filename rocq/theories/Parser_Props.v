(** Theorems about the importers (properties C74, C159-C168). *)
From Coq Require Import Ascii String ZArith Bool Arith Lia Reals Lra List.
From Verif Require Import Outcome Num ListAux Point_Model Angle_Model Swath_Model Container_Model Container_Spec Container_Proofs
  Container_Props Text_Model Text_Spec Text_Proofs Field_Model Field_Spec Field_Proofs Field_Props Transform_Model
  Parser_Model Parser_Spec Parser_Proofs.
Import ListNotations.
Local Open Scope nat_scope.

(** *** Replacing texts (C159) *)

Lemma replaced_det pat rep s r : pat <> [] -> replaced pat rep s r -> forall r', replaced pat rep s r' -> r = r'.
Proof.
  intros NE R. induction R as [s H|a b r M R IH]; intros r' R'.
  - inversion R'; subst; auto. exfalso. apply H. now exists a, b.
  - remember (a ++ pat ++ b) as s eqn:E. destruct R' as [s H|a' b' r2 M' R'].
    + subst. exfalso; apply H. now exists a, b.
    + assert (L : length a = length a').
      { apply Nat.le_antisymm; [apply (M a' b'); congruence|apply (M' a b); congruence]. }
      assert (K : a = a' /\ b = b').
      { assert (A : a = a'). { apply (f_equal (firstn (length a))) in E.
          rewrite L in E at 1. rewrite !firstn_app, !firstn_all, !Nat.sub_diag in E. cbn [firstn] in E. now rewrite !app_nil_r in E. }
        subst a'. split; auto. apply app_inv_head in E. now apply app_inv_head in E. }
      destruct K as [-> ->]. now rewrite (IH _ R').
Qed.

(** findAndReplaceAll terminates for every text and non-empty pattern, and replaces
    exactly the occurrences found from the left. *)
Theorem replace_all : forall pat rep s r, pat <> [] -> (findAndReplaceAll s pat rep = Ok r <-> replaced pat rep s r).
Proof.
  intros pat rep s r NE. destruct (findAndReplaceAll_replaced pat rep s NE) as [r0 [R E]]. split.
  - intros H. rewrite E in H. now injection H as <-.
  - intros H. rewrite E. f_equal. eapply replaced_det; eauto.
Qed.
Theorem replace_all_total : forall pat rep s, pat <> [] -> exists r, findAndReplaceAll s pat rep = Ok r.
Proof. intros pat rep s NE. destruct (findAndReplaceAll_replaced pat rep s NE) as [r [_ E]]. now exists r. Qed.
Example replace_all_ex : findAndReplaceAll (txt "aaabaa") (txt "aa") (txt "aaa") = Ok (txt "aaaabaaa").
Proof. reflexivity. Qed.

(** *** The coordinate text of GML (C74, C162) *)

(** The list "x,y x,y" becomes "x y, x y", for any number of coordinates and tuples
    of texts without the separators. *)
Theorem gml_text : forall tuples : list (list text),
  (forall t c, In t tuples -> In c t -> free "," c /\ free " " c /\ free ";" c) ->
  gml_to_wkt (joined (txt " ") (map (joined (txt ",")) tuples)) =
  Ok (txt "POLYGON ((" ++ joined (txt ", ") (map (joined (txt " ")) tuples) ++ txt "))").
Proof.
  intros tuples H. rewrite gml_to_wkt_ok. do 3 f_equal. rewrite flat_map_joined. rewrite map_map. cbn [list_ascii_of_string flat_map app Ascii.eqb Bool.eqb].
  f_equal. apply map_ext_in. intros t T. rewrite flat_map_joined. cbn [flat_map app Ascii.eqb Bool.eqb]. f_equal.
  rewrite <- (map_id t) at 2. apply map_ext_in. intros c C. destruct (H t c T C) as [A [B D]]. apply flat_map_id_on.
  intros x X. destruct (Ascii.eqb x ",") eqn:E1; [apply Ascii.eqb_eq in E1; subst; now elim A|].
  destruct (Ascii.eqb x " ") eqn:E2; [apply Ascii.eqb_eq in E2; subst; now elim B|].
  destruct (Ascii.eqb x ";") eqn:E3; [apply Ascii.eqb_eq in E3; subst; now elim D|]. reflexivity.
Qed.
Example gml_text_ex :
  gml_to_wkt (txt "6.5,51.9 6.6,51.9 6.6,52 6.5,51.9") = Ok (txt "POLYGON ((6.5 51.9, 6.6 51.9, 6.6 52, 6.5 51.9))") /\
  joined (txt " ") (map (joined (txt ",")) [[txt "6.5"; txt "51.9"]; [txt "6.6"; txt "52"]]) = txt "6.5,51.9 6.6,52".
Proof. split; reflexivity. Qed.

(** What happens to any text, character by character. *)
Theorem gml_text_any : forall s, exists outs,
  gml_to_wkt s = Ok (txt "POLYGON ((" ++ concat outs ++ txt "))") /\
  Forall2 (fun c out => (c = ","%char \/ c = ";"%char -> out = txt " ") /\ (c = " "%char -> out = txt ", ") /\
    (c <> ","%char -> c <> ";"%char -> c <> " "%char -> out = [c])) s outs.
Proof.
  intros s. eexists. split; [rewrite gml_to_wkt_ok, flat_map_concat_map; reflexivity|].
  induction s as [|c s IH]; cbn [map]; constructor; auto.
  destruct (Ascii.eqb_spec c ","), (Ascii.eqb_spec c " "), (Ascii.eqb_spec c ";"); subst;
    repeat split; intros; try congruence; try (now destruct H); intuition congruence.
Qed.
Example gml_text_any_ex : gml_to_wkt (txt "1,2;3 x") = Ok (txt "POLYGON ((1 2 3, x))").
Proof. reflexivity. Qed.

(** FINDING: tuples separated by other white space than one blank are run together:
    with a line break, two positions become one with four coordinates. *)
Theorem gml_whitespace_refuted : exists a b sep out, a = txt "6.5,51.9" /\ b = txt "6.6,52" /\ blank sep /\
  gml_to_wkt (a ++ [sep] ++ b) = Ok out /\ length (parts (Ascii.eqb ",") out) = 1.
Proof.
  exists (txt "6.5,51.9"), (txt "6.6,52"), "010"%char. eexists. repeat split.
  - right; now left.
Qed.
(** Two blanks give an empty position. *)
Theorem gml_two_blanks_refuted : exists a b out, a = txt "6.5,51.9" /\ b = txt "6.6,52" /\
  gml_to_wkt (a ++ txt "  " ++ b) = Ok out /\ In (txt " ") (parts (Ascii.eqb ",") out).
Proof. exists (txt "6.5,51.9"), (txt "6.6,52"). eexists. repeat split. right; now left. Qed.

(** *** Importing a GML file (C160, C161) *)

(** The field has the identifier and coordinate system of the file, and the positions
    of the polygon that GDAL reads from the converted text, up to twice the error of
    the text round trip. *)
Theorem gml_import : forall (wkt : rpoint -> rpoint) fromWkt e root id crs tuples silent s c fields,
  gml_parcel root id crs (joined (txt " ") (map (joined (txt ",")) tuples)) ->
  (forall t x, In t tuples -> In x t -> free "," x /\ free " " x /\ free ";" x) ->
  createSptRef crs silent = Ok s ->
  fromWkt (txt "POLYGON ((" ++ joined (txt ", ") (map (joined (txt " ")) tuples) ++ txt "))") = Some c ->
  well_formed [c] -> (forall p, within e (wkt p) p) ->
  exists f, importFieldGml wkt fromWkt (Some root) silent = Ok f /\ f_id f = id /\ f_crs f = crs /\
    cells_within (e + e) (getCellsAbsPosition RNum wkt f) [c] /\
    (silent = false -> importGml wkt fromWkt (Some root) fields = Ok (fields ++ [f])).
Proof.
  intros wkt fromWkt e root id crs tuples silent s c fields
    [pf [g [p [b [r [cs [H1 [H2 [H3 [H4 [H5 [H6 [HI [HA [n [a [l HC]]]]]]]]]]]]]]]]] HT HS HW WF HE.
  destruct (field_positions wkt e [c] id WF HE) as [f [F [Fi [_ [_ [_ [_ [_ [_ Fp]]]]]]]]].
  assert (E : importFieldGml wkt fromWkt (Some root) silent = Ok (field_setCRS f crs)).
  { unfold importFieldGml. rewrite (x_attr_or _ _ _ HI), (x_child_ok _ _ _ H1). cbn [deref bind].
    rewrite (x_child_ok _ _ _ H2). cbn [deref bind]. rewrite (x_child_ok _ _ _ H3). cbn [deref bind].
    rewrite (x_attr_ok _ _ _ HA). cbn [deref bind]. rewrite (x_child_ok _ _ _ H4). cbn [deref bind].
    rewrite (x_child_ok _ _ _ H5). cbn [deref bind]. rewrite (x_child_ok _ _ _ H6). cbn [deref bind]. subst cs. cbn [x_text deref bind].
    rewrite gml_text by exact HT. cbn [bind]. rewrite HS. cbn [bind]. rewrite HW. cbn [deref bind]. rewrite F. reflexivity. }
  exists (field_setCRS f crs). split; [exact E|]. split; [exact Fi|]. split; [reflexivity|]. split; [exact Fp|].
  intros ->. unfold importGml. now rewrite E.
Qed.

Definition gml_doc : xml :=
  Elem (txt "Parcel") [(txt "id", txt "P1")] None [Elem (txt "Field") [] None [Elem (txt "geometry") [] None [
    Elem (txt "gml:Polygon") [(txt "srsName", txt "EPSG:4258")] None [Elem (txt "gml:outerBoundaryIs") [] None [
      Elem (txt "gml:LinearRing") [] None [Elem (txt "gml:coordinates") [] (Some (txt "0,0 1,0 1,1 0,0")) []]]]]]].
Ltac only_child := eexists _, _, _, _; split; [reflexivity|]; eexists [], []; split; [reflexivity|]; split; [now eexists _, _, _|easy].
Lemma gml_doc_ok : gml_parcel gml_doc (txt "P1") (txt "EPSG:4258")
  (joined (txt " ") (map (joined (txt ",")) [[txt "0"; txt "0"]; [txt "1"; txt "0"]; [txt "1"; txt "1"]; [txt "0"; txt "0"]])).
Proof.
  unfold gml_parcel, gml_doc. do 6 eexists.
  split; [only_child|]. split; [only_child|]. split; [only_child|]. split; [only_child|]. split; [only_child|]. split; [only_child|].
  split; [left; eexists _, _, _, _; split; [reflexivity|]; eexists [], []; split; [reflexivity|]; split; [reflexivity|easy]|].
  split; [eexists _, _, _, _; split; [reflexivity|]; eexists [], []; split; [reflexivity|]; split; [reflexivity|easy]|].
  now eexists _, _, _.
Qed.
Definition gml_cell : cell RNum := [[mkPoint (N := RNum) 0 0 0; mkPoint (N := RNum) 1 0 0; mkPoint (N := RNum) 1 1 0; mkPoint (N := RNum) 0 0 0]]%R.
Example gml_import_ex : exists f, importFieldGml (fun p => p) (fun _ => Some gml_cell) (Some gml_doc) false = Ok f /\
  f_id f = txt "P1" /\ f_crs f = txt "EPSG:4258" /\ getCellsAbsPosition RNum (fun p => p) f = [gml_cell].
Proof.
  destruct (gml_import (fun p => p) (fun _ => Some gml_cell) 0 gml_doc (txt "P1") (txt "EPSG:4258")
    [[txt "0"; txt "0"]; [txt "1"; txt "0"]; [txt "1"; txt "1"]; [txt "0"; txt "0"]] false (SEpsg 4258) gml_cell [])
    as [f [E [A [B [C _]]]]].
  - exact gml_doc_ok.
  - intros t x T X. repeat (destruct T as [<-|T]; [repeat (destruct X as [<-|X]; [unfold free; cbn; repeat split; intuition discriminate|]); easy|]). easy.
  - reflexivity.
  - reflexivity.
  - intros x [<-|[]]. split; [now eexists _, _, []|]. intros r [<-|[]]. right. eexists _, [_; _]. now left.
  - intros [x y z]. unfold within; cbn [px py pz]. unfold Rminus; rewrite !Rplus_opp_r, Rabs_R0. repeat split; lra.
  - exists f. repeat split; auto. apply cells_within0. now replace 0%R with (0 + 0)%R at 1 by ring.
Qed.

(** Without a document the import throws. *)
Theorem gml_no_document : forall wkt fromWkt silent, importFieldGml wkt fromWkt None silent = Throw InvalidArgument.
Proof. reflexivity. Qed.

(** FINDING: documents of another shape, or with a coordinate text GDAL rejects, make
    the import use a null pointer. *)
Theorem gml_shape_refuted :
  (exists root, forall wkt fromWkt silent, importFieldGml wkt fromWkt (Some root) silent = UB) /\
  (exists root fromWkt, gml_parcel root (txt "P1") (txt "EPSG:4258") (txt "0,0 1,0 1,1 0,0") /\
     forall wkt silent, importFieldGml wkt fromWkt (Some root) silent = UB).
Proof.
  split.
  - exists (Elem (txt "Parcel") [] None []). reflexivity.
  - exists gml_doc, (fun _ => None). split; [exact gml_doc_ok|reflexivity].
Qed.

(** *** Cells (C163, C164) *)

(** The rings of a polygon are read with all their positions in order (through the
    text round trip), and closed if they were not. *)
Theorem json_cell : forall (wkt : rpoint -> rpoint) j rings, polygon j rings ->
  exists c, getCellFromJson wkt j = Ok c /\ Forall2 closing (map (map wkt) rings) c.
Proof.
  intros wkt j rings P. eexists. split; [apply getCell_ok; exact P|]. clear P. induction rings as [|r rings IH]; cbn [map]; constructor; auto.
  apply closing_ok.
Qed.

(** importCellJson reads the first feature, and throws if there is none. *)
Theorem json_first_cell : forall wkt doc l, features doc l ->
  importCellJson wkt doc = match l with j :: _ => getCellFromJson wkt j | [] => Throw TypeError end.
Proof.
  intros wkt doc l F. unfold importCellJson. rewrite (j_key_ok _ _ _ F). cbn [bind j_idx]. destruct l; reflexivity.
Qed.

Definition jpos (x y : Z) : json := JArr [JInt x; JInt y].
Definition jcell (coords : json) : json := JObj [(txt "geometry", JObj [(txt "coordinates", coords); (txt "type", JStr (txt "Polygon"))]);
  (txt "properties", JObj [(txt "Name", JStr (txt "A"))])].
Definition jdoc (l : list json) : json := JObj [(txt "features", JArr l); (txt "type", JStr (txt "FeatureCollection"))].
Ltac nodup := repeat constructor; cbn; intuition discriminate.
Ltac mem1 := eexists; split; [reflexivity|]; split; [nodup|left; reflexivity].
Ltac mem2 := eexists; split; [reflexivity|]; split; [nodup|right; left; reflexivity].
Lemma jdoc_features l : features (jdoc l) l.
Proof. eexists. split; [reflexivity|]. split; [nodup|now left]. Qed.
Lemma jcell_polygon rs rings : Forall2 positions rs rings -> polygon (jcell (JArr rs)) rings.
Proof.
  intros H. eexists _, rs. split; [eexists; split; [reflexivity|]; split; [nodup|now left]|].
  split; [eexists; split; [reflexivity|]; split; [nodup|now left]|exact H].
Qed.
Lemma jpos_position x y : position (jpos x y) (mkPoint (N := RNum) (IZR x) (IZR y) 0%R).
Proof. left. eexists _, _. split; [reflexivity|]. repeat split; left; eexists; split; reflexivity. Qed.

Example json_cell_ex : polygon (jcell (JArr [JArr [jpos 0 0; jpos 1 0; jpos 1 1]]))
    [[mkPoint (N := RNum) (IZR 0) (IZR 0) 0; mkPoint (N := RNum) (IZR 1) (IZR 0) 0; mkPoint (N := RNum) (IZR 1) (IZR 1) 0]]%R /\
  importCellJson (fun p => p) (jdoc []) = Throw TypeError.
Proof.
  split; [|reflexivity]. apply jcell_polygon. constructor; [|constructor]. eexists. split; [reflexivity|].
  repeat (apply Forall2_cons; [apply jpos_position|]). apply Forall2_nil.
Qed.

(** FINDING: positions with one or more than three numbers are replaced by the origin
    without an error. *)
Theorem json_position_refuted : exists (j : json) ring c g items, member j "geometry" g /\ member g "coordinates" (JArr [JArr items]) /\
    (forall it, In it items -> exists a b r, it = JArr (JInt a :: JInt b :: r) /\ (100 <= a)%Z) /\
    (forall wkt, (forall p, wkt p = p) -> getCellFromJson wkt j = Ok c) /\ c = [ring] /\
    forall p, In p ring -> px p = 0%R.
Proof.
  exists (jcell (JArr [JArr [JArr [JInt 100; JInt 0; JInt 0; JInt 0]; JArr [JInt 200; JInt 0; JInt 0; JInt 0]]])).
  exists [p_default RNum; p_default RNum], [[p_default RNum; p_default RNum]].
  eexists _, _. split; [eexists; split; [reflexivity|]; split; [nodup|now left]|].
  split; [eexists; split; [reflexivity|]; split; [nodup|now left]|]. split.
  - intros it [<-|[<-|[]]]; eexists _, _, _; (split; [reflexivity|lia]).
  - split; [|split; [reflexivity|]].
    + intros wkt W. transitivity (Ok [closeRing RNum (map wkt [p_default RNum; p_default RNum])]); [reflexivity|].
      cbn [map]. rewrite !W. do 2 f_equal. apply closeRing_closed. right. exists (p_default RNum), []. now left.
    + intros p [<-|[<-|[]]]; reflexivity.
Qed.

(** *** Fields (C165, C166) *)

(** A feature that is a polygon with a border and a name. *)
Definition field_feature (j : json) (name : text) (rings : list (list rpoint)) : Prop :=
  polygon j rings /\ property j "Name" (JStr name) /\ exists p r rs, rings = (p :: r) :: rs.

Lemma closing_wf {A} (rings c : list (list A)) : Forall2 closing rings c -> (exists p r rs, rings = (p :: r) :: rs) -> well_formed [c].
Proof.
  intros F [p [r [rs ->]]] x [<-|[]]. split.
  - inversion F as [|? r' ? rs' [C K] F']; subst. destruct K as [->|[_ [q [m [E K]]]]].
    + now eexists _, _, _.
    + injection E as -> ->. rewrite K. now eexists _, _, _.
  - intros q Q. clear -F Q. induction F as [|a b l l' [C _] F IH]; [easy|]. destruct Q as [<-|Q]; auto.
Qed.

Lemma field_of_json_ok wkt e j name rings : field_feature j name rings -> (forall p, within e (wkt p) p) ->
  exists f c, field_of_json wkt j = Ok f /\ f_id f = name /\ f_crs f = [] /\ Forall2 closing (map (map wkt) rings) c /\
    cells_within (e + e) (getCellsAbsPosition RNum wkt f) [c].
Proof.
  intros [P [[pr [M1 M2]] NE]] W. destruct (json_cell wkt j rings P) as [c [C F]].
  destruct (field_positions wkt e [c] name) as [f [E [I [R [_ [_ [_ [_ [_ A]]]]]]]]]; auto.
  { eapply closing_wf; [exact F|]. destruct NE as [p [r [rs ->]]]. now eexists _, _, _. }
  exists f, c. repeat split; auto. unfold field_of_json. rewrite C. cbn [bind]. rewrite (j_key_ok _ _ _ M1). cbn [bind].
  rewrite (j_key_ok _ _ _ M2). cbn [bind j_string]. exact E.
Qed.

Lemma push_fields_ok wkt e l specs : Forall2 (fun j s => field_feature j (fst s) (snd s)) l specs -> (forall p, within e (wkt p) p) ->
  exists fs, (forall rest fields, push_fields wkt (l ++ rest) fields = push_fields wkt rest (fields ++ fs)) /\
    Forall2 (fun s f => f_id f = fst s /\ f_crs f = [] /\ exists c, Forall2 closing (map (map wkt) (snd s)) c /\
      cells_within (e + e) (getCellsAbsPosition RNum wkt f) [c]) specs fs.
Proof.
  intros F W. induction F as [|j s l specs J F IH].
  - exists []. split; [|constructor]. intros rest fields. now rewrite app_nil_r.
  - destruct IH as [fs [E A]]. destruct (field_of_json_ok wkt e j _ _ J W) as [f [c [K [I [R [C P]]]]]].
    exists (f :: fs). split.
    + intros rest fields. cbn [app push_fields]. rewrite K, E, <- app_assoc. reflexivity.
    + constructor; auto. repeat split; auto. now exists c.
Qed.

(** Every feature becomes a field with its name, no coordinate system and the
    positions of its rings, appended in order. *)
Theorem json_fields : forall (wkt : rpoint -> rpoint) e doc l specs fields, features doc l ->
  Forall2 (fun j s => field_feature j (fst s) (snd s)) l specs -> (forall p, within e (wkt p) p) ->
  exists fs, importJson wkt doc fields = (fields ++ fs, Ok tt) /\
    Forall2 (fun s f => f_id f = fst s /\ f_crs f = [] /\ exists c, Forall2 closing (map (map wkt) (snd s)) c /\
      cells_within (e + e) (getCellsAbsPosition RNum wkt f) [c]) specs fs.
Proof.
  intros wkt e doc l specs fields D F W. destruct (push_fields_ok wkt e l specs F W) as [fs [E A]]. exists fs. split; auto.
  unfold importJson. rewrite (j_key_ok _ _ _ D). cbn [j_items]. specialize (E [] fields). rewrite app_nil_r in E. exact E.
Qed.

Lemma jcell_field rs rings : Forall2 positions rs rings -> (exists p r l, rings = (p :: r) :: l) ->
  field_feature (jcell (JArr rs)) (txt "A") rings.
Proof.
  intros H NE. split; [now apply jcell_polygon|]. split; auto. eexists.
  split; [mem2|mem1].
Qed.
Example json_fields_ex : exists specs, Forall2 (fun j s => field_feature j (fst s) (snd s))
  [jcell (JArr [JArr [jpos 0 0; jpos 1 0; jpos 1 1]]); jcell (JArr [JArr [jpos 5 5; jpos 6 5; jpos 5 6; jpos 5 5]])] specs /\
  map fst specs = [txt "A"; txt "A"].
Proof.
  eexists. split.
  - apply Forall2_cons; [|apply Forall2_cons; [|apply Forall2_nil]]; cbn [fst snd]; instantiate (1 := (_, _)); cbn [fst snd];
      (apply jcell_field; [apply Forall2_cons; [|apply Forall2_nil]; eexists; split; [reflexivity|];
        repeat (apply Forall2_cons; [apply jpos_position|]); apply Forall2_nil|now eexists _, _, _]).
  - reflexivity.
Qed.

(** A feature whose name is missing or no text stops the import with an exception;
    the fields of the features before it were already appended. *)
Theorem json_fields_name : forall (wkt : rpoint -> rpoint) e doc l j rings props l' specs fields,
  features doc (l ++ j :: l') -> Forall2 (fun j s => field_feature j (fst s) (snd s)) l specs -> (forall p, within e (wkt p) p) ->
  polygon j rings -> member j "properties" (JObj props) -> (forall v, ~ In (txt "Name", JStr v) props) ->
  exists fs, importJson wkt doc fields = (fields ++ fs, Throw TypeError) /\ map f_id fs = map fst specs.
Proof.
  intros wkt e doc l j rings props l' specs fields D F W P M N.
  destruct (push_fields_ok wkt e l specs F W) as [fs [E A]]. exists fs. split.
  - unfold importJson. rewrite (j_key_ok _ _ _ D). cbn [j_items]. rewrite E. cbn [push_fields].
    replace (field_of_json wkt j) with (Throw (A := rfield) TypeError); [reflexivity|]. symmetry.
    unfold field_of_json. destruct (json_cell wkt j rings P) as [c [C _]]. rewrite C. cbn [bind]. rewrite (j_key_ok _ _ _ M). cbn [bind j_key].
    unfold j_member. destruct (find (fun p => is_text (fst p) (txt "Name")) props) as [[k v]|] eqn:S; [|reflexivity].
    apply List.find_some in S. destruct S as [I K]. apply is_text_true in K. cbn in K. subst k. cbn [option_map snd bind].
    destruct v; try reflexivity. now elim (N s).
  - clear -A. induction A as [|s f specs fs [I _] A IH]; [reflexivity|]. cbn [map]. now rewrite I, IH.
Qed.
Example json_fields_name_ex : importJson (fun p => p) (jdoc [JObj [(txt "geometry", JObj [(txt "coordinates", JArr [])]); (txt "properties", JObj [])]]) [] = ([], Throw TypeError).
Proof. reflexivity. Qed.

(** FINDING: a feature without geometry does not throw: a missing member of a constant
    object is used. *)
Theorem json_geometry_refuted : (exists doc l, features doc l /\ forall wkt fields, importJson wkt doc fields = (fields, UB)) /\
  (exists doc l, features doc l /\ forall wkt, importCellJson wkt doc = UB).
Proof.
  split; exists (jdoc [JObj [(txt "properties", JObj [(txt "Name", JStr (txt "A"))])]]); eexists; (split; [apply jdoc_features|reflexivity]).
Qed.

(** *** Swaths (C167) *)

(** A feature that is a swath with points, width and number. *)
Definition swath_feature (j : json) (pts : list rpoint) (w : R) (i : Z) : Prop :=
  (exists g c, member j "geometry" g /\ member g "coordinates" c /\ positions c pts) /\
  (exists jw, property j "width" jw /\ number jw w) /\ property j "path_id" (JInt i) /\ (- 2 ^ 31 <= i < 2 ^ 31)%Z.

Lemma swath_of_json_ok j pts w i : swath_feature j pts w i ->
  swath_of_json j = if w_nonpos w then Throw InvalidArgument else Ok (mkSwath rpoint R i pts w true MAINLAND).
Proof.
  intros [[g [c [G [C P]]]] [[jw [[p [Mp Mw]] N]] [[p' [Mp' Mi]] B]]]. unfold swath_of_json.
  rewrite (j_key_ok _ _ _ G). cbn [bind]. rewrite (j_key_ok _ _ _ C). cbn [bind]. rewrite (jsonToLine_ok _ _ P). cbn [bind].
  rewrite (j_key_ok _ _ _ Mp). cbn [bind]. rewrite (j_key_ok _ _ _ Mw). cbn [bind]. rewrite (j_double_ok _ _ N). cbn [bind].
  assert (E : p' = p) by (apply j_key_ok in Mp; apply j_key_ok in Mp'; congruence). subst p'.
  rewrite (j_key_ok _ _ _ Mi). cbn [bind j_int]. rewrite Z.mod_small by lia.
  replace (i + 2 ^ 31 - 2 ^ 31)%Z with i by lia. cbn [bind]. unfold swath_new, swath_setWidth. cbn [sw_id sw_path sw_dir sw_type].
  destruct (w_nonpos w); reflexivity.
Qed.

(** Swaths are read in order with their points, width and number, as mainland swaths
    in the direction of the points. *)
Theorem json_swaths : forall doc l specs, features doc l ->
  Forall2 (fun j s => swath_feature j (fst (fst s)) (snd (fst s)) (snd s) /\ (0 < snd (fst s))%R) l specs ->
  exists r, importSwathsJson doc = Ok r /\
    Forall2 (fun s sw => sw_path sw = fst (fst s) /\ sw_width sw = snd (fst s) /\ sw_id sw = snd s /\
      sw_dir sw = true /\ sw_type sw = MAINLAND) specs r.
Proof.
  intros doc l specs D F. unfold importSwathsJson. rewrite (j_key_ok _ _ _ D). cbn [bind j_items].
  exists (map (fun s => mkSwath rpoint R (snd s) (fst (fst s)) (snd (fst s)) true MAINLAND) specs). split.
  - apply mapM_ok. clear D. induction F as [|j s l specs [J P] F IH]; cbn [map]; constructor; auto. rewrite (swath_of_json_ok _ _ _ _ J).
    unfold w_nonpos. now rewrite (proj2 (Rleb_false _ _)) by exact P.
  - clear F D. induction specs as [|s specs IH]; cbn [map]; constructor; auto.
Qed.

(** A width that is not positive makes the whole import throw. *)
Theorem json_swaths_width : forall doc l j l' specs pts w i, features doc (l ++ j :: l') ->
  Forall2 (fun j s => swath_feature j (fst (fst s)) (snd (fst s)) (snd s) /\ (0 < snd (fst s))%R) l specs ->
  swath_feature j pts w i -> (w <= 0)%R -> importSwathsJson doc = Throw InvalidArgument.
Proof.
  intros doc l j l' specs pts w i D F J W. unfold importSwathsJson. rewrite (j_key_ok _ _ _ D). cbn [bind j_items]. clear D.
  induction F as [|j' s l specs [J' P] F IH]; cbn [app mapM].
  - rewrite (swath_of_json_ok _ _ _ _ J). unfold w_nonpos. now rewrite (proj2 (Rleb_true _ _)) by exact W.
  - rewrite (swath_of_json_ok _ _ _ _ J'). unfold w_nonpos at 1. rewrite (proj2 (Rleb_false _ _)) by exact P. cbn [bind]. now rewrite IH.
Qed.

Definition jswath (w : R) : json := JObj [(txt "geometry", JObj [(txt "coordinates", JArr [jpos 0 0; jpos 5 0])]);
  (txt "properties", JObj [(txt "path_id", JInt 3); (txt "width", JFloat w)])].
Example json_swaths_ex : forall w, swath_feature (jswath w)
  [mkPoint (N := RNum) (IZR 0) (IZR 0) 0; mkPoint (N := RNum) (IZR 5) (IZR 0) 0]%R w 3.
Proof.
  intros w. split; [|split; [|split; [|lia]]].
  - eexists _, _. split; [eexists; split; [reflexivity|]; split; [nodup|now left]|].
    split; [eexists; split; [reflexivity|]; split; [nodup|now left]|].
    eexists. split; [reflexivity|]. repeat (apply Forall2_cons; [apply jpos_position|]). apply Forall2_nil.
  - eexists. split; [eexists; split; [mem2|mem2]|]. now right.
  - eexists. split; [mem2|mem1].
Qed.

(** *** Strips (C168) *)

(** Strips are read in order with their names and the closed rings of their cells. *)
Theorem json_strips : forall (wkt : rpoint -> rpoint) doc l specs, features doc l ->
  Forall2 (fun j s => polygon j (snd s) /\ property j "crop_id" (JStr (fst s))) l specs ->
  exists r, importStripsJson wkt doc = Ok r /\
    Forall2 (fun s st => fst st = fst s /\ Forall2 closing (map (map wkt) (snd s)) (snd st)) specs r.
Proof.
  intros wkt doc l specs D F. unfold importStripsJson. rewrite (j_key_ok _ _ _ D). cbn [bind j_items]. clear D.
  induction F as [|j s l specs [P [p [M1 M2]]] F [r [E A]]]; [exists []; split; [reflexivity|constructor]|].
  destruct (json_cell wkt j _ P) as [c [C K]]. exists ((fst s, c) :: r). split; [|constructor; auto].
  cbn [mapM]. unfold strip_of_json at 1. rewrite (j_key_ok _ _ _ M1). cbn [bind]. rewrite (j_key_ok _ _ _ M2). cbn [bind j_string].
  rewrite C. cbn [bind]. now rewrite E.
Qed.
Example json_strips_ex : polygon (JObj [(txt "geometry", JObj [(txt "coordinates", JArr [])]); (txt "properties", JObj [(txt "crop_id", JStr (txt "wheat"))])]) [] /\
  property (JObj [(txt "geometry", JObj [(txt "coordinates", JArr [])]); (txt "properties", JObj [(txt "crop_id", JStr (txt "wheat"))])]) "crop_id" (JStr (txt "wheat")).
Proof.
  split.
  - eexists _, []. split; [eexists; split; [reflexivity|]; split; [nodup|now left]|].
    split; [eexists; split; [reflexivity|]; split; [nodup|now left]|constructor].
  - eexists. split; [mem2|mem1].
Qed.

Print Assumptions replace_all.
Print Assumptions replace_all_total.
Print Assumptions gml_text.
Print Assumptions gml_text_any.
Print Assumptions gml_whitespace_refuted.
Print Assumptions gml_two_blanks_refuted.
Print Assumptions gml_import.
Print Assumptions gml_no_document.
Print Assumptions gml_shape_refuted.
Print Assumptions json_cell.
Print Assumptions json_first_cell.
Print Assumptions json_position_refuted.
Print Assumptions json_fields.
Print Assumptions json_fields_name.
Print Assumptions json_geometry_refuted.
Print Assumptions json_swaths.
Print Assumptions json_swaths_width.
Print Assumptions json_strips.
