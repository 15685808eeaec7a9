(** Theorems about coordinate transformations (properties C73, C148-C157). *)
From Coq Require Import Ascii String ZArith Bool Arith Lia Reals Lra List.
From Verif Require Import Outcome Num ListAux Point_Model Angle_Model Angle_Spec Angle_Proofs Swath_Model Route_Model
  Path_Model Path_Spec Container_Model Container_Spec Container_Proofs Container_Props
  Text_Model Text_Spec Text_Proofs Field_Model Field_Spec Field_Proofs Field_Props Transform_Model Transform_Spec
  Transform_Proofs.
Import ListNotations.
Local Open Scope nat_scope.

(** *** Systems (C148-C150) *)

(** C148.  What each text asks for: the empty text and texts without a code are
    refused, or silently mean nothing; an EPSG text means its number; a UTM text with
    a two-digit zone means the PROJ text of that zone, hemisphere and datum, with the
    ETRS89 datum recognised in any case. *)
Theorem spt_meaning :
  createSptRef [] false = Throw InvalidArgument /\ createSptRef [] true = Ok SNone /\
  (forall crs, ~ occurs (txt "EPSG:") crs -> ~ occurs (txt "UTM:") crs ->
     createSptRef crs false = Throw InvalidArgument /\ createSptRef crs true = Ok SNone) /\
  (forall s n v quiet, decimal s n -> ends a_digit v -> (n < 2 ^ 31)%Z ->
     createSptRef (txt "EPSG:" ++ s ++ v) quiet = Ok (SEpsg n)) /\
  (forall a b h d quiet, a_digit a -> a_digit b -> In h (txt "nNsS") -> d <> [] -> all (fun c => a_digit c \/ a_letter c) d ->
     exists flag tail,
       (In h (txt "nN") -> flag = txt "+north") /\ (In h (txt "sS") -> flag = txt "+south") /\
       (same_nocase d (txt "ETRS89") -> tail = txt " +ellps=GRS80 +towgs84=0,0,0,0,0,0,0 +type=crs") /\
       (~ same_nocase d (txt "ETRS89") -> tail = txt " +datum=" ++ d) /\
       createSptRef (txt "UTM:" ++ [a; b; h] ++ txt " datum:" ++ d) quiet =
         Ok (SProj (txt "+proj=utm +zone=" ++ [a; b] ++ txt " " ++ flag ++ tail ++ txt " +units=m +no_defs "))).
Proof.
  split; [reflexivity|]. split; [reflexivity|]. split; [|split].
  - intros crs E U. unfold createSptRef.
    destruct (isCoordSystemEPSG crs) eqn:A; [exfalso; apply E; now apply find_is|].
    destruct (isCoordSystemUTM crs) eqn:B; [exfalso; apply U; now apply find_is|].
    destruct crs; split; reflexivity.
  - intros s n v quiet D V N. pose proof (decimal_digits s n D) as [_ [P _]].
    pose proof (epsg_reads [] [] s n v) as K. cbn [app] in K.
    destruct K as [K _]; auto; [intros c []|].
    destruct (list_eq_dec ascii_dec [] (txt "-")) as [X|_] in K; [discriminate|].
    unfold createSptRef. rewrite K by lia.
    assert (I : isCoordSystemEPSG (txt "EPSG:" ++ s ++ v) = true) by (apply find_is; exists [], (s ++ v); reflexivity).
    rewrite I. reflexivity.
  - intros a b h d quiet A B H DN DL.
    assert (LH : a_letter h) by (cbn in H; destruct H as [<-|[<-|[<-|[<-|[]]]]]; apply letter_class; reflexivity).
    assert (NE : isCoordSystemEPSG (txt "UTM:" ++ [a; b; h] ++ txt " datum:" ++ d) = false).
    { destruct (isCoordSystemEPSG _) eqn:E; auto. exfalso. apply find_is in E. revert E. apply no_epsg; [|exact DL].
      intros c [<-|[<-|[<-|[]]]]; auto. }
    assert (IU : isCoordSystemUTM (txt "UTM:" ++ [a; b; h] ++ txt " datum:" ++ d) = true) by (apply find_is; exists []; eexists; reflexivity).
    assert (FA : first_at utm_at (txt "UTM:" ++ [a; b; h] ++ txt " datum:" ++ d) [a; b; h]).
    { apply utm_prefixed.
      - exists [a; b]. split; [discriminate|]. split; [intros c [<-|[<-|[]]]; auto|]. right. exists h. split; [now left|reflexivity].
      - intros c t E. injection E as <- _. split.
        + intros K. apply digit_class in K. discriminate.
        + intros [K|K]; [apply letter_class in K; discriminate|discriminate]. }
    assert (FD : getUTMDatum (txt "UTM:" ++ [a; b; h] ++ txt " datum:" ++ d) datum_default = d).
    { apply getDatum_first. apply datum_after; auto. exists [a; b]. split; [discriminate|]. split; [intros c [<-|[<-|[]]]; auto|].
      right. exists h. split; [now left|reflexivity]. }
    unfold createSptRef. rewrite NE, IU, FD. unfold getUTMZone, getUTMHemisphere. rewrite (getUTM_first _ _ _ FA).
    cbn [app txt list_ascii_of_string andb bind substr Nat.ltb Nat.leb length skipn firstn].
    exists (if Ascii.eqb h "n" || Ascii.eqb h "N" then txt "+north" else if Ascii.eqb h "s" || Ascii.eqb h "S" then txt "+south" else []),
      (if iequals d (txt "ETRS89") then txt " +ellps=GRS80 +towgs84=0,0,0,0,0,0,0 +type=crs" else txt " +datum=" ++ d).
    repeat split.
    + intros [<-|[<-|[]]]; reflexivity.
    + intros [<-|[<-|[]]]; reflexivity.
    + intros S1. apply iequals_iff in S1. destruct (iequals d _); [reflexivity|discriminate].
    + intros S1. destruct (iequals d _) eqn:E; [exfalso; apply S1; now apply iequals_iff|reflexivity].
Qed.

Example spt_meaning_ex :
  createSptRef (txt "UTM:31S datum:etRS89") false =
    Ok (SProj (txt "+proj=utm +zone=31 +south +ellps=GRS80 +towgs84=0,0,0,0,0,0,0 +type=crs +units=m +no_defs ")) /\
  createSptRef (txt "UTM:31N datum:WGS84") false = Ok (SProj (txt "+proj=utm +zone=31 +north +datum=WGS84 +units=m +no_defs ")) /\
  createSptRef (txt "EPSG:28992") false = Ok (SEpsg 28992).
Proof. repeat split; reflexivity. Qed.

(** C149 is false: for zones 1 to 9 the PROJ text has no hemisphere flag, and the
    letter in the zone; the northern and the southern half then give texts that differ
    only in that letter. *)
Theorem spt_small_zone_refuted : exists z h, (1 <= z <= 60)%Z /\ (h = "N"%char \/ h = "S"%char) /\
  createSptRef (txt "UTM:" ++ to_string z ++ [h] ++ txt " datum:WGS84") false <>
    Ok (SProj (txt "+proj=utm +zone=" ++ to_string z ++ txt " " ++ (if Ascii.eqb h "N" then txt "+north" else txt "+south") ++
               txt " +datum=WGS84 +units=m +no_defs ")).
Proof. exists 5%Z, "S"%char. split; [lia|]. split; [now right|]. discriminate. Qed.

Theorem spt_small_zone : forall z h, (1 <= z <= 9)%Z -> h = "N"%char \/ h = "S"%char ->
  createSptRef (txt "UTM:" ++ to_string z ++ [h] ++ txt " datum:WGS84") false =
    Ok (SProj (txt "+proj=utm +zone=" ++ to_string z ++ [h] ++ txt "  +datum=WGS84 +units=m +no_defs ")).
Proof.
  intros z h Z H.
  assert (C : (z = 1 \/ z = 2 \/ z = 3 \/ z = 4 \/ z = 5 \/ z = 6 \/ z = 7 \/ z = 8 \/ z = 9)%Z) by lia.
  destruct C as [->|[->|[->|[->|[->|[->|[->|[->| ->]]]]]]]]; destruct H as [->| ->]; reflexivity.
Qed.
Example spt_small_zone_ex : createSptRef (txt "UTM:5S datum:WGS84") false = Ok (SProj (txt "+proj=utm +zone=5S  +datum=WGS84 +units=m +no_defs ")).
Proof. exact (spt_small_zone 5 "S"%char ltac:(lia) (or_intror eq_refl)). Qed.

(** C150.  The zone in the name contains the longitude; north means y > 0. *)
Theorem utm_zone_choice : forall (p : pt) crs, (-180 <= px p < 180)%R ->
  exists z h d, zone_of (px p) z /\ (h = txt "N" /\ (0 < py p)%R \/ h = txt "S" /\ (py p <= 0)%R) /\
    (d = txt "ETRS89" /\ crs = txt "EPSG:4258" \/ d = txt "WGS84" /\ crs <> txt "EPSG:4258") /\
    utm_name p crs = Ok (txt "UTM:" ++ to_string z ++ h ++ txt " datum:" ++ d).
Proof.
  intros p crs H. destruct (utm_name_ok p crs H) as [z [Z E]]. exists z, (hemi (py p)), (datum_of crs). split; [exact Z|]. split; [|split; [|exact E]].
  - destruct (hemi_letter (py p)) as [h [-> [_ [[-> X]|[-> X]]]]]; auto.
  - unfold datum_of. destruct (list_eq_dec ascii_dec crs (txt "EPSG:4258")); auto.
Qed.

(** The antimeridian seen from the west gets zone 61. *)
Theorem utm_zone_choice_refuted : exists p : pt, (-180 <= px p <= 180)%R /\
  utm_name p (txt "EPSG:4326") = Ok (txt "UTM:61N datum:WGS84").
Proof.
  exists (mkPoint (N := RNum) 180 10 0)%R. split; [cbn; lra|]. unfold utm_name. cbn [px py].
  replace (Int_part ((180 + 180) / 6)%R) with 60%Z by (symmetry; apply floor_unique; lra).
  replace (Rltb 0 10) with true by (symmetry; apply Rltb_true; lra). reflexivity.
Qed.

Example utm_zone_ex : zone_of (5 + 2 / 3)%R 31%Z.
Proof. split; [lia|lra]. Qed.

(** *** Fields (C73, C151, C152) *)

(** C151.  Transforming a field moves its absolute positions by the conversion, up to
    twice the error of the text round trip; the reference is the first border point
    (for an empty field, the converted reference); the previous system is remembered. *)
Theorem transform_moves : forall mk (wkt : pt -> pt) e (f : rfield) to g, well_formed (f_cells f) ->
  (forall p, within e (wkt p) p) -> generateCoordTransf mk (f_crs f) to = Ok g ->
  exists f', transform_field mk wkt f to = (f', Ok tt) /\ f_id f' = f_id f /\ f_crs f' = to /\ f_prev f' = f_crs f /\
    (forall p, starts_at (getCellsAbsPosition RNum wkt f) p -> f_ref f' = g p) /\
    (f_cells f = [] -> f_ref f' = g (f_ref f) /\ f_cells f' = []) /\ well_formed (f_cells f') /\
    cells_within (e + e) (getCellsAbsPosition RNum wkt f') (map (map (map g)) (getCellsAbsPosition RNum wkt f)).
Proof.
  intros mk wkt e f to g W H G. eexists. split; [eapply transform_field_eq; [exact W|exact G]|].
  cbn [f_id f_crs f_prev f_cells f_ref]. do 3 (split; [reflexivity|]).
  assert (WM : well_formed (moved_cells wkt g f)) by (apply well_formed_map; exact W).
  rewrite (abs_ok wkt f W). split; [|split; [|split]].
  - intros p [r [rs [c' E]]]. unfold new_ref, moved_cells. destruct (f_cells f) as [|x c] eqn:X; [discriminate|].
    destruct x as [|y x]; [discriminate|]. destruct y as [|q y]; [discriminate|]. cbn [map] in E. injection E as E _ _ _. cbn. now rewrite E.
  - intros E. unfold new_ref, moved_cells. rewrite E. split; reflexivity.
  - now apply well_formed_map.
  - rewrite abs_ok by (cbn [f_cells]; now apply well_formed_map). cbn [f_cells f_ref]. rewrite map3_map.
    unfold moved_cells. rewrite !map3_map. apply within_map. intros p. cbn beta. now apply within_sub.
Qed.

(** Undoing: with inverse conversions the absolute positions come back, as exactly as
    the text format allows and the way back does not stretch. *)
Theorem transform_undo : forall mk (wkt : pt -> pt) e k (f : rfield) to g h, well_formed (f_cells f) ->
  (forall p, within e (wkt p) p) -> generateCoordTransf mk (f_crs f) to = Ok g ->
  generateCoordTransf mk to (f_crs f) = Ok h -> (forall p, h (g p) = p) ->
  (forall d p q, within d p q -> within (k * d) (h p) (h q)) ->
  exists f' f'', transform_field mk wkt f to = (f', Ok tt) /\ transformToPrevCRS mk wkt f' = (f'', Ok tt) /\
    f_id f'' = f_id f /\ f_crs f'' = f_crs f /\ f_prev f'' = to /\ (f_cells f = [] -> f_ref f'' = f_ref f) /\
    cells_within (k * (e + e) + (e + e)) (getCellsAbsPosition RNum wkt f'') (getCellsAbsPosition RNum wkt f).
Proof.
  intros mk wkt e k f to g h W H G Hh I K.
  destruct (transform_moves mk wkt e f to g W H G) as [f' [T [I1 [C1 [P1 [_ [E1 [W1 A1]]]]]]]].
  assert (G' : generateCoordTransf mk (f_crs f') (f_crs f) = Ok h) by (rewrite C1; exact Hh).
  destruct (transform_moves mk wkt e f' (f_crs f) h W1 H G') as [f'' [T2 [I2 [C2 [P2 [_ [E2 [_ A2]]]]]]]].
  exists f', f''. split; [exact T|]. split.
  { unfold transformToPrevCRS. rewrite P1. pose proof (crs_nonempty _ _ _ _ G) as NE. destruct (f_crs f) eqn:X; [now elim NE|]. exact T2. }
  split; [congruence|]. split; [congruence|]. split; [congruence|]. split.
  { intros E. destruct (E1 E) as [R1 N1]. destruct (E2 N1) as [R2 _]. rewrite R2, R1. apply I. }
  assert (M : cells_within (k * (e + e)) (map (map (map h)) (getCellsAbsPosition RNum wkt f')) (getCellsAbsPosition RNum wkt f)).
  { assert (Q : map (map (map h)) (map (map (map g)) (getCellsAbsPosition RNum wkt f)) = getCellsAbsPosition RNum wkt f).
    { rewrite map3_map. rewrite <- map3_id. apply map_ext. intros x. apply map_ext. intros y. apply map_ext. intros p. apply I. }
    rewrite <- Q. clear - A1 K. unfold cells_within in *. induction A1 as [|x y l l' X _ IH]; cbn [map]; constructor; auto.
    clear - X K. induction X as [|x y l l' X _ IH]; cbn [map]; constructor; auto.
    clear - X K. induction X as [|x y l l' X _ IH]; cbn [map]; constructor; auto. }
  clear - A2 M. unfold cells_within in *.
  revert M. generalize (getCellsAbsPosition RNum wkt f). revert A2. generalize (getCellsAbsPosition RNum wkt f''), (map (map (map h)) (getCellsAbsPosition RNum wkt f')).
  assert (T1 : forall A (P Q R : A -> A -> Prop), (forall a b c, P a b -> Q b c -> R a c) -> forall l l' l'', Forall2 P l l' -> Forall2 Q l' l'' -> Forall2 R l l'').
  { intros A P Q R PQR l l' l'' F. revert l''. induction F as [|x y l l' X _ IH]; intros l'' F'; inversion F'; subst; constructor; eauto. }
  intros a b F c F'. revert a b c F F'. apply T1. apply T1. apply T1. intros p q r [X [Y Z]] [X' [Y' Z']]. unfold within.
  assert (TR : forall a b c d1 d2 : R, (Rabs (a - b) <= d1)%R -> (Rabs (b - c) <= d2)%R -> (Rabs (a - c) <= d2 + d1)%R).
  { intros a b c d1 d2 A B. replace (a - c)%R with ((a - b) + (b - c))%R by ring. eapply Rle_trans; [apply Rabs_triang|]. lra. }
  repeat split; eapply TR; eauto.
Qed.

(** A shift of the plane as conversion. *)
Definition shift_mk (a b : sptref) : outcome (pt -> pt) :=
  match a, b with
  | SEpsg n, SEpsg m => Ok (fun p : pt => mkPoint (N := RNum) (px p + (IZR m - IZR n))%R (py p) (pz p))
  | _, _ => UB
  end.
Definition ex_field : rfield := mkField (txt "f") (txt "EPSG:4326") [] (mkPoint (N := RNum) 7 0 0)%R one_cell.

Lemma ex_wf : well_formed (f_cells ex_field).
Proof. exact one_cell_wf. Qed.

Example transform_undo_ex : exists g h, generateCoordTransf shift_mk (f_crs ex_field) (txt "EPSG:4258") = Ok g /\
  generateCoordTransf shift_mk (txt "EPSG:4258") (f_crs ex_field) = Ok h /\ (forall p, h (g p) = p) /\
  (forall d p q, within d p q -> within (1 * d) (h p) (h q)) /\ g (mkPoint (N := RNum) 100 0 0)%R = mkPoint (N := RNum) 32%R 0%R 0%R.
Proof.
  exists (fun p : pt => mkPoint (N := RNum) (px p + (4258 - 4326))%R (py p) (pz p)),
    (fun p : pt => mkPoint (N := RNum) (px p + (4326 - 4258))%R (py p) (pz p)).
  assert (Q1 : forall x : R, (x + (4258 - 4326) + (4326 - 4258))%R = x) by (intros; ring).
  assert (Q2 : (100 + (4258 - 4326))%R = 32%R) by ring.
  split; [reflexivity|]. split; [reflexivity|]. split; [|split].
  - intros [x y z]. cbn [px py pz]. f_equal. apply Q1.
  - intros d [x y z] [x' y' z'] [A [B C]]. cbn [px py pz] in *. unfold within; cbn [px py pz]. rewrite Rmult_1_l. repeat split; auto.
    assert (Q : forall x x' : R, (x + (4326 - 4258) - (x' + (4326 - 4258)))%R = (x - x')%R) by (intros; ring).
    rewrite Q. exact A.
  - cbn [px py pz]. f_equal. apply Q2.
Qed.

(** C73 as stated is false: the reference point does not come back when it was not the
    first border point. *)
Theorem transform_undo_refuted : exists mk (f f' f'' : rfield), well_formed (f_cells f) /\
  transform_field mk (fun p => p) f (txt "EPSG:4258") = (f', Ok tt) /\ transformToPrevCRS mk (fun p => p) f' = (f'', Ok tt) /\
  f_ref f'' <> f_ref f.
Proof.
  destruct transform_undo_ex as [g [h [G [Hh [I [K _]]]]]].
  assert (G0 : forall p : pt, within 0 p p) by (intros p; apply within_id).
  destruct (transform_moves shift_mk (fun p => p) 0 ex_field (txt "EPSG:4258") g ex_wf G0 G) as [f' [T [_ [C1 [P1 [R1 [_ [W1 A1]]]]]]]].
  rewrite <- C1 in Hh.
  destruct (transform_moves shift_mk (fun p => p) 0 f' (f_crs ex_field) h W1 G0 Hh) as [f'' [T2 [_ [_ [_ [R2 _]]]]]].
  exists shift_mk, ex_field, f', f''. split; [exact ex_wf|]. split; [exact T|]. split.
  { unfold transformToPrevCRS. rewrite P1. exact T2. }
  assert (A : getCellsAbsPosition RNum (fun p => p) f' = map (map (map g)) (getCellsAbsPosition RNum (fun p => p) ex_field)).
  { apply cells_within0. now replace 0%R with (0 + 0)%R by ring. }
  assert (SA : starts_at (getCellsAbsPosition RNum (fun p => p) f') (g (p_add RNum (mkPoint (N := RNum) 1 1 0) (f_ref ex_field))%R)).
  { rewrite A, abs_ok by exact ex_wf. do 3 eexists. reflexivity. }
  rewrite (R2 _ SA), I. cbn. intros E. injection E as E _. lra.
Qed.

(** C152 is false: when the target is not recognised, transform throws after moving the
    cells by the reference point, so that the field is displaced. *)
Theorem transform_throw : forall mk (f : rfield) to x, well_formed (f_cells f) -> f_cells f <> [] ->
  generateCoordTransf mk (f_crs f) to = Throw x ->
  exists f', transform_field mk (fun p => p) f to = (f', Throw x) /\ f_ref f' = f_ref f /\ f_crs f' = f_crs f /\
    getCellsAbsPosition RNum (fun p => p) f' = map (map (map (fun p => plus p (f_ref f)))) (getCellsAbsPosition RNum (fun p => p) f).
Proof.
  intros mk f to x W N G. unfold transform_field, field_isEmpty. rewrite wf_isEmpty by exact W.
  destruct (f_cells f) as [|c cs] eqn:E; [now elim N|]. cbn [negb]. unfold field_setField at 1; cbn [f_crs]. cbv zeta; cbn [f_crs field_setField]; rewrite G. cbn [eval].
  eexists. split; [reflexivity|]. cbn [f_ref f_crs f_cells]. do 2 (split; [reflexivity|]).
  unfold getCellsAbsPosition; cbn [f_ref f_cells]. rewrite E. unfold field_setField; cbn [f_ref f_cells]. unfold cells_add.
  rewrite (wf_image (fun p => p) (fun p => p_add RNum p (f_ref f)) (c :: cs) W).
  rewrite wf_image by (apply well_formed_map; exact W). reflexivity.
Qed.

Theorem transform_throw_refuted : exists mk (f f' : rfield) to x, well_formed (f_cells f) /\
  transform_field mk (fun p => p) f to = (f', Throw x) /\
  getCellsAbsPosition RNum (fun p => p) f' <> getCellsAbsPosition RNum (fun p => p) f.
Proof.
  destruct (transform_throw shift_mk ex_field (txt "local") InvalidArgument ex_wf) as [f' [T [_ [_ A]]]]; [discriminate|reflexivity|].
  exists shift_mk, ex_field, f', (txt "local"), InvalidArgument. split; [exact ex_wf|]. split; [exact T|].
  rewrite A, abs_ok by exact ex_wf. cbn. intros E. injection E as E. lra.
Qed.

Print Assumptions spt_meaning.
Print Assumptions spt_small_zone_refuted.
Print Assumptions spt_small_zone.
Print Assumptions utm_zone_choice.
Print Assumptions utm_zone_choice_refuted.
Print Assumptions transform_moves.
Print Assumptions transform_undo.
Print Assumptions transform_undo_refuted.
Print Assumptions transform_throw.
Print Assumptions transform_throw_refuted.
