(** Theorems about the UTM transformation of fields and about transformed swaths,
    routes and paths (properties C150-C157, C158). *)
From Coq Require Import Ascii String ZArith Bool Arith Lia Reals Lra List.
From Verif Require Import Outcome Num ListAux Point_Model Angle_Model Angle_Spec Angle_Proofs Swath_Model Route_Model
  Path_Model Path_Spec Container_Model Container_Spec Container_Proofs Container_Props
  Text_Model Text_Spec Text_Proofs Field_Model Field_Spec Field_Proofs Field_Props Transform_Model Transform_Spec
  Transform_Proofs Transform_Props.
Import ListNotations.
Local Open Scope nat_scope.

(** Absolute positions, with an exact text format. *)
Notation abs := (getCellsAbsPosition RNum (fun p => p)).

(** *** To UTM and back (C158) *)

Lemma same_text a b : is_text a b = true <-> a = b.
Proof. unfold is_text. destruct (list_eq_dec ascii_dec a b); split; auto; discriminate. Qed.
Lemma other_text a b : is_text a b = false <-> a <> b.
Proof. unfold is_text. destruct (list_eq_dec ascii_dec a b); split; auto; [discriminate|tauto]. Qed.

(** With conversions that compose, a field in a recognised system is first brought to
    a geographic system (EPSG:4258 inside the European box if asked, else
    EPSG:4326; fields in one of these stay there), then to the UTM zone of its
    reference point there; transformToPrevCRS brings it back to where it was. *)
Theorem to_utm_and_back : forall mk conv,
  (forall a b, mk a b = Ok (conv a b)) -> (forall a b c p, conv b c (conv a b p) = conv a c p) -> (forall a p, conv a a p = p) ->
  forall (f : rfield) etrs r, well_formed (f_cells f) -> f_cells f <> [] -> createSptRef (f_crs f) false = Ok r ->
  let geo := [txt "EPSG:4326"; txt "EPSG:4258"] in
  exists n q, (n = 4326%Z \/ n = 4258%Z) /\
    (In (f_crs f) geo -> createSptRef (f_crs f) false = Ok (SEpsg n) /\ q = f_ref f) /\
    (~ In (f_crs f) geo -> starts_at (map (map (map (conv r (SEpsg n)))) (abs f)) q /\
       (n = 4258%Z -> etrs = true) /\
       (etrs = true -> forall p, starts_at (map (map (map (conv r (SEpsg 4326)))) (abs f)) p ->
          (n = 4258%Z <-> (-16.1 < px p < 32.88)%R /\ (40.18 < py p < 84.73)%R))) /\
    ((-180 <= px q < 180)%R -> exists z h d f1 f2 r', zone_of (px q) z /\
       (h = txt "N" /\ (0 < py q)%R \/ h = txt "S" /\ (py q <= 0)%R) /\
       (d = txt "WGS84" /\ n = 4326%Z \/ d = txt "ETRS89" /\ n = 4258%Z) /\
       transformToUTM mk (fun p => p) f etrs = (f1, Ok tt) /\ f_id f1 = f_id f /\ f_prev f1 = f_crs f /\
       f_crs f1 = txt "UTM:" ++ to_string z ++ h ++ txt " datum:" ++ d /\ createSptRef (f_crs f1) false = Ok r' /\
       abs f1 = map (map (map (conv r r'))) (abs f) /\
       well_formed (f_cells f1) /\ starts_at (abs f1) (f_ref f1) /\
       transformToPrevCRS mk (fun p => p) f1 = (f2, Ok tt) /\ f_id f2 = f_id f /\ f_crs f2 = f_crs f /\ abs f2 = abs f).
Proof.
  intros mk conv CM CC CI f etrs r W N R geo.
  assert (NE : f_crs f <> []) by (intros E; rewrite E in R; discriminate).
  (* the last part, from a field [g] in the geographic system *)
  assert (LAST : forall (g : rfield) n, well_formed (f_cells g) -> f_cells g <> [] -> (n = 4326%Z /\ f_crs g = txt "EPSG:4326" \/ n = 4258%Z /\ f_crs g = txt "EPSG:4258") ->
    f_id g = f_id f -> abs g = map (map (map (conv r (SEpsg n)))) (abs f) ->
    (-180 <= px (f_ref g) < 180)%R -> exists z h d f1 f2 r', zone_of (px (f_ref g)) z /\
       (h = txt "N" /\ (0 < py (f_ref g))%R \/ h = txt "S" /\ (py (f_ref g) <= 0)%R) /\
       (d = txt "WGS84" /\ n = 4326%Z \/ d = txt "ETRS89" /\ n = 4258%Z) /\
       eval g (utm_name (f_ref g) (f_crs g)) (fun utm_zone =>
         andThen (transform_field mk (fun p => p) g utm_zone) (fun f0 => (field_setPrevCRS f0 (f_crs f), Ok tt))) = (f1, Ok tt) /\ f_id f1 = f_id f /\ f_prev f1 = f_crs f /\
       f_crs f1 = txt "UTM:" ++ to_string z ++ h ++ txt " datum:" ++ d /\ createSptRef (f_crs f1) false = Ok r' /\
       abs f1 = map (map (map (conv r r'))) (abs f) /\
       well_formed (f_cells f1) /\ starts_at (abs f1) (f_ref f1) /\
       transformToPrevCRS mk (fun p => p) f1 = (f2, Ok tt) /\ f_id f2 = f_id f /\ f_crs f2 = f_crs f /\ abs f2 = abs f).
  { intros g n Wg Ng Cg Ig Ag X. destruct (utm_name_ok (f_ref g) (f_crs g) X) as [z [Z E]]. rewrite E. cbn [eval].
    destruct (spt_utm z (py (f_ref g)) (f_crs g) (proj1 Z)) as [r' R'].
    assert (Rg : createSptRef (f_crs g) false = Ok (SEpsg n)) by (destruct Cg as [[-> ->]|[-> ->]]; reflexivity).
    destruct (coherent_step mk conv CM g _ _ _ Wg Rg R') as [f0 [T0 [I0 [C0 [_ [W0 [A0 S0]]]]]]].
    set (f1 := field_setPrevCRS f0 (f_crs f)).
    assert (A1 : abs f1 = map (map (map (conv r r'))) (abs f)).
    { change (abs f1) with (abs f0). rewrite A0, Ag. now apply conv3c. }
    assert (R1 : createSptRef (f_crs f1) false = Ok r') by (change (f_crs f1) with (f_crs f0); rewrite C0; exact R').
    destruct (coherent_step mk conv CM f1 (f_crs f) _ _ W0 R1 R) as [f2 [T2 [I2 [C2 [_ [_ [A2 _]]]]]]].
    exists z, (hemi (py (f_ref g))), (datum_of (f_crs g)), f1, f2, r'. split; [exact Z|]. split.
    { destruct (hemi_letter (py (f_ref g))) as [h [-> [_ [[-> Q]|[-> Q]]]]]; auto. }
    split. { destruct Cg as [[-> ->]|[-> ->]]; [left|right]; split; reflexivity. }
    split. { rewrite T0. reflexivity. }
    split; [change (f_id f1) with (f_id f0); congruence|]. split; [reflexivity|]. split; [exact C0|]. split; [exact R1|]. split; [exact A1|].
    split; [exact W0|]. split; [exact (proj1 (S0 Ng))|].
    split. { unfold transformToPrevCRS. change (f_prev f1) with (f_crs f). destruct (f_crs f) eqn:Q; [now elim NE|]. exact T2. }
    split; [change (f_id f1) with (f_id f0) in I2; congruence|]. split; [exact C2|]. rewrite A2, A1. now apply conv3. }
  assert (IDC : map (map (map (conv r r))) (abs f) = abs f).
  { rewrite <- (map3_id (abs f)) at 2. apply map_ext. intros x. apply map_ext. intros y. apply map_ext. intros p. apply CI. }
  unfold transformToUTM.
  destruct (is_text (f_crs f) (txt "EPSG:4258")) eqn:E1; [|destruct (is_text (f_crs f) (txt "EPSG:4326")) eqn:E2].
  - apply same_text in E1. assert (r = SEpsg 4258) by (rewrite E1 in R; injection R as <-; reflexivity). subst r.
    exists 4258%Z, (f_ref f). split; [now right|]. split; [now split|]. split; [intros K; elim K; rewrite E1; right; now left|].
    intros X. destruct (LAST f 4258%Z W N (or_intror (conj eq_refl E1)) eq_refl (eq_sym IDC) X) as [z [h [d [f1 [f2 [r' L]]]]]].
    exists z, h, d, f1, f2, r'. rewrite !andb_false_r. destruct (f_crs f) eqn:Q; [discriminate|]. exact L.
  - apply same_text in E2. assert (r = SEpsg 4326) by (rewrite E2 in R; injection R as <-; reflexivity). subst r.
    exists 4326%Z, (f_ref f). split; [now left|]. split; [now split|]. split; [intros K; elim K; rewrite E2; now left|].
    intros X. destruct (LAST f 4326%Z W N (or_introl (conj eq_refl E2)) eq_refl (eq_sym IDC) X) as [z [h [d [f1 [f2 [r' L]]]]]].
    exists z, h, d, f1, f2, r'. rewrite !andb_false_r. destruct (f_crs f) eqn:Q; [discriminate|]. exact L.
  - apply other_text in E1, E2.
    destruct (coherent_step mk conv CM f (txt "EPSG:4326") r (SEpsg 4326) W R eq_refl) as [g [T [I [C [_ [Wg [A S0]]]]]]].
    destruct (S0 N) as [SA Ng].
    assert (HC : match f_crs f with [] => true | _ => false end = false) by (destruct (f_crs f); [now elim NE|reflexivity]).
    rewrite HC, T. cbn [negb andb andThen snd fst].
    assert (UQ : forall p, starts_at (map (map (map (conv r (SEpsg 4326)))) (abs f)) p -> p = f_ref g).
    { rewrite <- A. intros p [x [y [u V]]]. destruct SA as [x' [y' [u' V']]]. rewrite V in V'. now injection V'. }
    assert (EU : in_europe (f_ref g) = true <-> (-16.1 < px (f_ref g) < 32.88)%R /\ (40.18 < py (f_ref g) < 84.73)%R).
    { unfold in_europe. rewrite !andb_true_iff, !Rltb_true. lra. }
    destruct (etrs && in_europe (f_ref g)) eqn:EE.
    + apply andb_true_iff in EE. destruct EE as [-> EE].
      assert (Rg : createSptRef (f_crs g) false = Ok (SEpsg 4326)) by (rewrite C; reflexivity).
      destruct (coherent_step mk conv CM g (txt "EPSG:4258") (SEpsg 4326) (SEpsg 4258) Wg Rg eq_refl) as [g2 [T2 [I2 [C2 [_ [Wg2 [A2 S2]]]]]]].
      destruct (S2 Ng) as [SA2 Ng2].
      assert (A3 : abs g2 = map (map (map (conv r (SEpsg 4258)))) (abs f)) by (rewrite A2, A; now apply conv3c).
      exists 4258%Z, (f_ref g2). split; [now right|]. split; [intros [K|[K|[]]]; congruence|]. split.
      { intros _. split; [rewrite <- A3; exact SA2|]. split; [reflexivity|]. intros _ p P. apply UQ in P. subst p. split; auto. intros _. now apply EU. }
      intros X. destruct (LAST g2 4258%Z Wg2 Ng2 (or_intror (conj eq_refl C2)) ltac:(congruence) A3 X) as [z [h [d [f1 [f2 [r' L]]]]]].
      exists z, h, d, f1, f2, r'. rewrite T2. cbn [andThen snd fst]. exact L.
    + exists 4326%Z, (f_ref g). split; [now left|]. split; [intros [K|[K|[]]]; congruence|]. split.
      { intros _. split; [rewrite <- A; exact SA|]. split; [discriminate|]. intros -> p P. apply UQ in P. subst p. split; [discriminate|].
        intros K. apply EU in K. cbn [andb] in EE. congruence. }
      intros X. destruct (LAST g 4326%Z Wg Ng (or_introl (conj eq_refl C)) ltac:(congruence) A X) as [z [h [d [f1 [f2 [r' L]]]]]].
      exists z, h, d, f1, f2, r'. exact L.
Qed.
Print Assumptions to_utm_and_back.

(** Shifts as conversions that compose. *)
Definition shift_of (a : sptref) : R := match a with SEpsg n => IZR n | SProj t => INR (length t) | SNone => 0%R end.
Definition shift_conv (a b : sptref) (p : pt) : pt := mkPoint (N := RNum) (px p + (shift_of b - shift_of a))%R (py p) (pz p).
Example to_utm_ex : (forall a b c p, shift_conv b c (shift_conv a b p) = shift_conv a c p) /\ (forall a p, shift_conv a a p = p) /\
  well_formed (f_cells ex_field) /\ f_cells ex_field <> [] /\ createSptRef (f_crs ex_field) false = Ok (SEpsg 4326) /\
  (-180 <= px (f_ref ex_field) < 180)%R.
Proof.
  split; [|split; [|split; [exact ex_wf|split; [discriminate|split; [reflexivity|cbn; lra]]]]].
  - intros a b c [x y z]. unfold shift_conv; cbn [px py pz]. f_equal.
    assert (Q : forall x u v w : R, (x + (v - u) + (w - v))%R = (x + (w - u))%R) by (intros; ring). apply Q.
  - intros a [x y z]. unfold shift_conv; cbn [px py pz]. f_equal. assert (Q : forall x u : R, (x + (u - u))%R = x) by (intros; ring). apply Q.
Qed.

(** A field without a system is taken to be geographic when its reference point (or,
    if that is at the origin, its first border point) looks so. *)
Theorem to_utm_local : forall mk (f : rfield) etrs p, well_formed (f_cells f) -> f_crs f = [] ->
  starts_at (abs f) p -> close (f_ref f) (mkPoint (N := RNum) 0 0 0)%R ->
  (close p (mkPoint (N := RNum) 0 0 0)%R -> exists f', transformToUTM mk (fun p => p) f etrs = (f', Throw OutOfRange)) /\
  (~ close p (mkPoint (N := RNum) 0 0 0)%R -> ~ ((-180 < px p < 180)%R /\ (-90 < py p < 90)%R) ->
     exists f', transformToUTM mk (fun p => p) f etrs = (f', Throw InvalidArgument)) /\
  (~ close p (mkPoint (N := RNum) 0 0 0)%R -> (-180 < px p < 180)%R -> (-90 < py p < 90)%R ->
     exists g, f_ref g = p /\ f_id g = f_id f /\ abs g = abs f /\
       (f_crs g = txt "EPSG:4258" <-> etrs = true /\ (-16.1 < px p < 32.88)%R /\ (40.18 < py p < 84.73)%R) /\
       (f_crs g = txt "EPSG:4258" \/ f_crs g = txt "EPSG:4326") /\
       transformToUTM mk (fun p => p) f etrs = transformToUTM mk (fun p => p) g etrs).
Proof.
  intros mk f etrs p W C SA CL.
  assert (PE : forall q : pt, p_eq RNum q (p_default RNum) = true <-> close q (mkPoint (N := RNum) 0 0 0)%R).
  { intros q. change (mkPoint (N := RNum) 0 0 0)%R with (p_default RNum). destruct (p_ne_close q (p_default RNum)) as [[A B]|[A B]]; unfold p_ne in A.
    - apply negb_true_iff in A. rewrite A. split; [discriminate|tauto].
    - apply negb_false_iff in A. rewrite A. tauto. }
  assert (W' : well_formed (abs f)) by (rewrite abs_ok by exact W; now apply well_formed_map).
  assert (CLN : exists g, field_clone RNum (fun p => p) f = Ok g /\ f_ref g = p /\ f_id g = f_id f /\ f_crs g = [] /\ well_formed (f_cells g) /\ abs g = abs f).
  { unfold field_clone. change (cells_add RNum (fun p => p) (f_cells f) (f_ref f)) with (abs f).
    destruct (field_positions (fun p => p) 0 (abs f) (f_id f) W' within_id) as [g [G [I [_ [_ [F [_ [Wg [_ A]]]]]]]]].
    rewrite G. eexists. split; [reflexivity|]. cbn. destruct SA as [r [rs [c' E]]]. split; [eapply F; exact E|]. split; [exact I|]. split; [exact C|].
    split; [exact Wg|]. apply cells_within0. now replace 0%R with (0 + 0)%R by ring. }
  destruct CLN as [g [G [Rg [Ig [Cg [Wg Ag]]]]]].
  assert (T0 : p_eq RNum (f_ref f) (p_default RNum) = true) by now apply PE.
  assert (EU : in_europe p = true <-> (-16.1 < px p < 32.88)%R /\ (40.18 < py p < 84.73)%R).
  { unfold in_europe. rewrite !andb_true_iff, !Rltb_true. lra. }
  assert (WO : in_world p = true <-> (-180 < px p < 180)%R /\ (-90 < py p < 90)%R).
  { unfold in_world. rewrite !andb_true_iff, !Rltb_true. lra. }
  unfold transformToUTM at 1 2 3. rewrite C. cbn [negb andb]. rewrite T0, G. cbn [eval andThen snd fst]. rewrite Rg.
  split; [|split].
  - intros K. apply PE in K. rewrite K. eauto.
  - intros K K2. destruct (p_eq RNum p (p_default RNum)) eqn:Q; [exfalso; apply K; now apply PE|].
    destruct (etrs && in_europe p) eqn:EE.
    + exfalso. apply andb_true_iff in EE. destruct EE as [_ EE]. apply EU in EE. apply K2. lra.
    + destruct (in_world p) eqn:WW; [exfalso; apply K2; now apply WO|]. eauto.
  - intros K X Y. destruct (p_eq RNum p (p_default RNum)) eqn:Q; [exfalso; apply K; now apply PE|].
    destruct (etrs && in_europe p) eqn:EE.
    + exists (field_setCRS g (txt "EPSG:4258")). split; [exact Rg|]. split; [exact Ig|]. split; [exact Ag|]. split.
      { apply andb_true_iff in EE. destruct EE as [E1 E2]. apply EU in E2. split; auto. }
      split; [now left|]. unfold transformToUTM. cbn [f_crs field_setCRS f_ref]. rewrite Rg. reflexivity.
    + rewrite (proj2 WO) by auto. exists (field_setCRS g (txt "EPSG:4326")). split; [exact Rg|]. split; [exact Ig|]. split; [exact Ag|]. split.
      { split; [discriminate|]. intros [-> E2]. apply EU in E2. cbn in EE. congruence. }
      split; [now right|]. unfold transformToUTM. cbn [f_crs field_setCRS f_ref]. rewrite Rg. reflexivity.
Qed.
Print Assumptions to_utm_local.

Example to_utm_local_ex : exists f : rfield, f_crs f = [] /\ starts_at (abs f) (mkPoint (N := RNum) 1 1 0)%R /\
  close (f_ref f) (mkPoint (N := RNum) 0 0 0)%R /\ ~ close (mkPoint (N := RNum) 1 1 0)%R (mkPoint (N := RNum) 0 0 0)%R.
Proof.
  exists (mkField [] [] [] (mkPoint (N := RNum) 0 0 0)%R one_cell). split; [reflexivity|]. split.
  - rewrite abs_ok by exact one_cell_wf. assert (Q : p_add RNum (mkPoint (N := RNum) 1 1 0)%R (mkPoint (N := RNum) 0 0 0)%R = (mkPoint (N := RNum) 1 1 0)%R).
    { unfold p_add. cbn. f_equal; ring. }
    unfold starts_at. cbn [f_cells f_ref one_cell map]. rewrite Q. now do 3 eexists.
  - unfold close. cbn [f_ref px py pz]. split.
    + rewrite Rminus_0_r, Rabs_R0. lra.
    + intros [K _]. rewrite Rminus_0_r, Rabs_R1 in K. lra.
Qed.

(** *** Swaths, strips and points (C153) *)

(** C153 as stated is false: type and direction of the swath are lost. *)
Theorem transform_swath : forall mk (wkt : pt -> pt) (s : rswath) (f : rfield) to g,
  generateCoordTransf mk (f_crs f) to = Ok g ->
  ((0 < sw_width s)%R -> exists t, transformSwathWithFieldRef mk wkt s f to = Ok t /\ sw_id t = sw_id s /\ sw_width t = sw_width s /\
     sw_path t = map (fun p => g (wkt (plus p (f_ref f)))) (sw_path s) /\ sw_type t = MAINLAND /\ sw_dir t = true) /\
  ((sw_width s <= 0)%R -> transformSwathWithFieldRef mk wkt s f to = Throw InvalidArgument).
Proof.
  intros mk wkt s f to g G. unfold transformSwathWithFieldRef, transform_line_ref, transform_line. rewrite G. cbn [bind].
  unfold swath_new, swath_setWidth, w_nonpos. split; intros W.
  - replace (Rleb (sw_width s) 0) with false by (symmetry; apply Rleb_false; lra).
    eexists. split; [reflexivity|]. cbn [sw_id sw_width sw_path sw_type sw_dir]. do 2 (split; [reflexivity|]). split; [|now split].
    unfold line_image, line_clone. rewrite fold_snoc. cbn [app]. rewrite !map_map. reflexivity.
  - replace (Rleb (sw_width s) 0) with true by (symmetry; now apply Rleb_true). reflexivity.
Qed.
Print Assumptions transform_swath.

Definition ex_swath : rswath := mkSwath pt R 3%Z [mkPoint (N := RNum) 0 0 0; mkPoint (N := RNum) 1 0 0]%R 2%R false HEADLAND.
Theorem transform_swath_refuted : exists mk (s t : rswath) (f : rfield) to,
  transformSwathWithFieldRef mk (fun p => p) s f to = Ok t /\ sw_type t <> sw_type s /\ sw_dir t <> sw_dir s.
Proof.
  destruct (transform_swath shift_mk (fun p => p) ex_swath ex_field (txt "EPSG:4258") _ eq_refl) as [T _].
  destruct T as [t [T [_ [_ [_ [Ty D]]]]]]; [cbn; lra|].
  exists shift_mk, ex_swath, t, ex_field, (txt "EPSG:4258"). split; [exact T|]. rewrite Ty, D. split; discriminate.
Qed.
Print Assumptions transform_swath_refuted.

(** The swaths of a list are transformed one by one; lines of points likewise. *)
Theorem transform_many : forall mk (wkt : pt -> pt) (l : list rswath) (f : rfield) to g,
  generateCoordTransf mk (f_crs f) to = Ok g ->
  ((forall s, In s l -> (0 < sw_width s)%R) -> exists l', transformSwathsWithFieldRef mk wkt l f to = Ok l' /\
     Forall2 (fun s t => sw_id t = sw_id s /\ sw_width t = sw_width s /\
       sw_path t = map (fun p => g (wkt (plus p (f_ref f)))) (sw_path s)) l l') /\
  (forall mp, transformMultiPointWithFieldRef mk mp f to = Ok (map (fun p => g (plus p (f_ref f))) mp)) /\
  (to = txt "EPSG:4326" -> getRefPointInGPS mk f = Ok (g (f_ref f))).
Proof.
  intros mk wkt l f to g G. split; [|split].
  - intros H. unfold transformSwathsWithFieldRef. induction l as [|s l IH]; [exists []; split; [reflexivity|constructor]|].
    cbn [mapM]. destruct (proj1 (transform_swath mk wkt s f to g G) (H s (or_introl eq_refl))) as [t [T [I [Wd [P _]]]]].
    destruct IH as [l' [L F]]; [intros; apply H; now right|]. rewrite T, L. cbn [bind]. eexists. split; [reflexivity|]. constructor; auto.
  - intros mp. unfold transformMultiPointWithFieldRef. rewrite G. cbn [bind]. rewrite fold_snoc. reflexivity.
  - intros ->. unfold getRefPointInGPS. rewrite G. reflexivity.
Qed.
Print Assumptions transform_many.

(** Strips and swaths between two given systems. *)
Theorem transform_plain : forall mk (wkt : pt -> pt) from to g, generateCoordTransf mk from to = Ok g ->
  (forall s : text * list (list pt), transformStrip mk wkt s from to = Ok (fst s, map (map (fun p => g (wkt p))) (snd s))) /\
  (forall l : list (text * list (list pt)), transformStrips mk wkt l from to = Ok (map (fun s => (fst s, map (map (fun p => g (wkt p))) (snd s))) l)) /\
  (forall s : rswath, (0 < sw_width s)%R -> exists t, transformSwath mk wkt s from to = Ok t /\ sw_id t = sw_id s /\
     sw_width t = sw_width s /\ sw_path t = map (fun p => g (wkt p)) (sw_path s)) /\
  (forall l : list rswath, (forall s, In s l -> (0 < sw_width s)%R) -> exists l', transformSwaths mk wkt l from to = Ok l' /\
     Forall2 (fun s t => sw_id t = sw_id s /\ sw_width t = sw_width s /\ sw_path t = map (fun p => g (wkt p)) (sw_path s)) l l').
Proof.
  intros mk wkt from to g G.
  assert (ST : forall s : text * list (list pt), transformStrip mk wkt s from to = Ok (fst s, map (map (fun p => g (wkt p))) (snd s))).
  { intros s. unfold transformStrip, transform_cell. rewrite G. cbn [bind]. do 2 f_equal. apply map_ext. intros r. unfold line_clone. apply map_map. }
  assert (SW : forall s : rswath, (0 < sw_width s)%R -> exists t, transformSwath mk wkt s from to = Ok t /\ sw_id t = sw_id s /\
     sw_width t = sw_width s /\ sw_path t = map (fun p => g (wkt p)) (sw_path s)).
  { intros s W. unfold transformSwath, transform_line. rewrite G. cbn [bind]. unfold swath_new, swath_setWidth, w_nonpos.
    replace (Rleb (sw_width s) 0) with false by (symmetry; apply Rleb_false; lra).
    eexists. split; [reflexivity|]. cbn [sw_id sw_width sw_path]. do 2 (split; [reflexivity|]). unfold line_clone. apply map_map. }
  split; [exact ST|]. split; [|split; [exact SW|]].
  - intros l. unfold transformStrips. induction l as [|s l IH]; [reflexivity|]. cbn [mapM map]. rewrite ST, IH. reflexivity.
  - intros l H. unfold transformSwaths. induction l as [|s l IH]; [exists []; split; [reflexivity|constructor]|].
    cbn [mapM]. destruct (SW s (H s (or_introl eq_refl))) as [t [T K]].
    destruct IH as [l' [L F]]; [intros; apply H; now right|]. rewrite T, L. cbn [bind]. eexists. split; [reflexivity|]. constructor; auto.
Qed.
Print Assumptions transform_plain.

Example transform_swath_ex : exists t, transformSwathWithFieldRef shift_mk (fun p => p) ex_swath ex_field (txt "EPSG:4258") = Ok t /\
  map (@px RNum) (sw_path t) = [-61; -60]%R.
Proof.
  destruct (transform_swath shift_mk (fun p => p) ex_swath ex_field (txt "EPSG:4258")
    (fun p : pt => mkPoint (N := RNum) (px p + (4258 - 4326))%R (py p) (pz p)) eq_refl) as [T _].
  destruct T as [t [T [_ [_ [P _]]]]]; [cbn; lra|]. exists t. split; [exact T|]. rewrite P. cbn. f_equal; [|f_equal]; lra.
Qed.

Example transform_many_ex : exists l', transformSwathsWithFieldRef shift_mk (fun p => p) [ex_swath; ex_swath] ex_field (txt "EPSG:4258") = Ok l' /\
  List.length l' = 2%nat.
Proof.
  destruct (transform_many shift_mk (fun p => p) [ex_swath; ex_swath] ex_field (txt "EPSG:4258")
    (fun p : pt => mkPoint (N := RNum) (px p + (4258 - 4326))%R (py p) (pz p)) eq_refl) as [H _].
  destruct H as (l' & E & F); [intros s [<-|[<-|[]]]; cbn; lra|]. exists l'. split; [exact E|]. apply Forall2_length in F. symmetry. exact F.
Qed.

(** *** Routes (C157) *)

Lemma vec_set_mid {A} (p q : list A) a b : vec_set (p ++ a :: q) (length p) b = Ok (p ++ b :: q).
Proof.
  unfold vec_set. rewrite nth_error_app2, Nat.sub_diag by lia. cbn [nth_error]. f_equal. f_equal.
  - rewrite firstn_app, firstn_all, Nat.sub_diag. cbn [firstn]. apply app_nil_r.
  - f_equal. rewrite skipn_app. replace (S (length p) - length p) with 1 by lia.
    rewrite (skipn_all2 p) by lia. reflexivity.
Qed.

Lemma set_loop {A} (v : list A) (upd : A -> outcome A) (h : A -> A) : (forall a, In a v -> upd a = Ok (h a)) -> forall n, n <= length v ->
  foldM (fun l i => do s <- vec_index l i; do s' <- upd s; vec_set l i s') (seq 0 n) v = Ok (map h (firstn n v) ++ skipn n v).
Proof.
  intros U. induction n as [|n IH]; intros L; [reflexivity|].
  rewrite seq_S, foldM_app, IH by lia. cbn [bind foldM Nat.add].
  destruct (nth_error v n) as [a|] eqn:E; [|apply nth_error_None in E; lia].
  assert (SK : skipn n v = a :: skipn (S n) v).
  { clear - E. revert n E. induction v as [|b v IHv]; intros [|n] E; try discriminate; [now injection E as ->|]. cbn [skipn]. apply IHv. exact E. }
  assert (LM : length (map h (firstn n v)) = n) by (rewrite map_length, firstn_length; lia).
  unfold vec_index. rewrite nth_error_app2 by lia. rewrite LM, Nat.sub_diag, SK. cbn [nth_error bind].
  rewrite U by (eapply nth_error_In; exact E). cbn [bind].
  replace n with (length (map h (firstn n v))) at 3 by exact LM. rewrite vec_set_mid. cbn [bind]. f_equal.
  assert (FN : firstn (S n) v = firstn n v ++ [a]).
  { clear - E. revert n E. induction v as [|b v IHv]; intros [|n] E; try discriminate; [now injection E as ->|]. cbn [firstn app]. f_equal. apply IHv. exact E. }
  rewrite FN, map_app, <- app_assoc. reflexivity.
Qed.

Lemma set_loop_all {A} (v : list A) (upd : A -> outcome A) (h : A -> A) : (forall a, In a v -> upd a = Ok (h a)) ->
  foldM (fun l i => do s <- vec_index l i; do s' <- upd s; vec_set l i s') (seq 0 (length v)) v = Ok (map h v).
Proof. intros U. rewrite (set_loop v upd h U) by lia. now rewrite firstn_all, skipn_all, app_nil_r. Qed.

Lemma route_swaths_loop (upd : list rswath -> outcome (list rswath)) l : forall r : route pt R,
  foldM (fun r i => do s <- r_getSwaths r i; do s' <- upd s; r_setSwaths r i s') l r =
  (do v <- foldM (fun v i => do s <- vec_index v i; do s' <- upd s; vec_set v i s') l (r_swaths r); Ok (mkRoute v (r_conns r))).
Proof.
  induction l as [|i l IH]; intros r; [destruct r; reflexivity|]. cbn [foldM]. unfold r_getSwaths at 1, r_setSwaths at 1.
  destruct (vec_index (r_swaths r) i) as [s| | |]; cbn [bind]; try reflexivity.
  destruct (upd s) as [s'| | |]; cbn [bind]; try reflexivity.
  destruct (vec_set (r_swaths r) i s') as [v| | |]; cbn [bind]; try reflexivity. rewrite IH. reflexivity.
Qed.
Lemma route_conns_loop (upd : list pt -> outcome (list pt)) l : forall r : route pt R,
  foldM (fun r i => do s <- r_getConnection r i; do s' <- upd s; r_setConnection r i s') l r =
  (do v <- foldM (fun v i => do s <- vec_index v i; do s' <- upd s; vec_set v i s') l (r_conns r); Ok (mkRoute (r_swaths r) v)).
Proof.
  induction l as [|i l IH]; intros r; [destruct r; reflexivity|]. cbn [foldM]. unfold r_getConnection at 1, r_setConnection at 1.
  destruct (vec_index (r_conns r) i) as [s| | |]; cbn [bind]; try reflexivity.
  destruct (upd s) as [s'| | |]; cbn [bind]; try reflexivity.
  destruct (vec_set (r_conns r) i s') as [v| | |]; cbn [bind]; try reflexivity. rewrite IH. reflexivity.
Qed.

(** C157.  Every swath and every connection of a route is transformed. *)
Theorem transform_route : forall mk (wkt : pt -> pt) (r : route pt R) (f : rfield) to g,
  generateCoordTransf mk (f_crs f) to = Ok g -> (forall s, In s (concat (r_swaths r)) -> (0 < sw_width s)%R) ->
  exists r', transformRouteWithFieldRef mk wkt r f to = Ok r' /\
    r_conns r' = map (map (fun p => g (plus (wkt p) (f_ref f)))) (r_conns r) /\
    Forall2 (Forall2 (fun s t => sw_id t = sw_id s /\ sw_width t = sw_width s /\
      sw_path t = map (fun p => g (wkt (plus (wkt p) (f_ref f)))) (sw_path s))) (r_swaths r) (r_swaths r').
Proof.
  intros mk wkt r f to g G H.
  assert (PW : forall s, In s (concat (r_swaths r)) -> w_nonpos (sw_width s) = false).
  { intros s K. unfold w_nonpos. apply Rleb_false. apply H in K. lra. }
  set (cl := fun s : rswath => mkSwath pt R (sw_id s) (map wkt (sw_path s)) (sw_width s) (sw_dir s) MAINLAND).
  assert (CL : r_clone w_nonpos 0%R wkt r = Ok (mkRoute (map (map cl) (r_swaths r)) (map (map wkt) (r_conns r)))).
  { unfold r_clone.
    assert (M : forall v, (forall s, In s (concat v) -> w_nonpos (sw_width s) = false) -> mapM (swaths_clone w_nonpos 0%R wkt) v = Ok (map (map cl) v)).
    { induction v as [|l v IH]; intros K; [reflexivity|]. cbn [mapM map].
      assert (ML : swaths_clone w_nonpos 0%R wkt l = Ok (map cl l)).
      { assert (KL : forall s, In s l -> w_nonpos (sw_width s) = false) by (intros s I; apply K; cbn; apply in_or_app; auto).
        clear - KL. unfold swaths_clone. induction l as [|s l IH]; [reflexivity|]. cbn [mapM map].
        unfold swath_clone at 1, swath_new, swath_setWidth. rewrite (KL s (or_introl eq_refl)). cbn [bind].
        rewrite IH by (intros; apply KL; now right). reflexivity. }
      rewrite ML. cbn [bind]. rewrite IH by (intros s I; apply K; cbn; apply in_or_app; auto). reflexivity. }
    rewrite M by exact PW. reflexivity. }
  set (tr := fun s : rswath => mkSwath pt R (sw_id s) (map (fun p => g (wkt (plus p (f_ref f)))) (sw_path s)) (sw_width s) true MAINLAND).
  assert (TR : forall l : list rswath, (forall s, In s l -> (0 < sw_width s)%R) -> transformSwathsWithFieldRef mk wkt l f to = Ok (map tr l)).
  { unfold transformSwathsWithFieldRef. induction l as [|s l IH]; intros K; [reflexivity|]. cbn [mapM map].
    destruct (proj1 (transform_swath mk wkt s f to g G) (K s (or_introl eq_refl))) as [t [T [I [Wd [P [Ty D]]]]]].
    rewrite T, IH by (intros; apply K; now right). cbn [bind]. f_equal. f_equal. destruct t; cbn in *. unfold tr. congruence. }
  unfold transformRouteWithFieldRef. rewrite CL, G. cbn [bind]. rewrite route_swaths_loop. unfold r_sizeVectorSwaths. cbn [r_swaths r_conns].
  rewrite (set_loop_all _ _ (map tr)).
  2:{ intros l L. apply in_map_iff in L. destruct L as [l0 [<- L]]. apply TR. intros s I. apply in_map_iff in I. destruct I as [s0 [<- I]].
      cbn [sw_width cl]. apply H. apply in_concat. eauto. }
  cbn [bind]. rewrite route_conns_loop. unfold r_sizeConnections. cbn [r_swaths r_conns].
  rewrite (set_loop_all _ _ (map (fun p => g (plus p (f_ref f))))).
  2:{ intros mp _. exact (proj1 (proj2 (transform_many mk wkt [] f to g G)) mp). }
  cbn [bind]. eexists. split; [reflexivity|]. cbn [r_conns r_swaths]. split.
  - rewrite map_map. apply map_ext. intros l. rewrite map_map. reflexivity.
  - clear. induction (r_swaths r) as [|l v IH]; cbn [map]; constructor; auto. clear.
    induction l as [|s l IH]; cbn [map]; constructor; auto. unfold tr, cl. cbn [sw_id sw_width sw_path]. repeat split. rewrite map_map. reflexivity.
Qed.
Print Assumptions transform_route.

Example transform_route_ex : exists r', transformRouteWithFieldRef shift_mk (fun p => p)
  (mkRoute [[ex_swath]; [ex_swath]] [[]; [mkPoint (N := RNum) 5 5 5]]%R) ex_field (txt "EPSG:4258") = Ok r' /\ length (r_swaths r') = 2.
Proof.
  edestruct (transform_route shift_mk (fun p => p) (mkRoute [[ex_swath]; [ex_swath]] [[]; [mkPoint (N := RNum) 5 5 5]]%R) ex_field (txt "EPSG:4258") _ eq_refl) as [r' [T [_ F]]].
  - cbn. intros s [<-|[<-|[]]]; cbn; lra.
  - exists r'. split; [exact T|]. apply Forall2_length in F. now rewrite <- F.
Qed.

(** *** Paths (C154-C156) *)

(** C154.  The states are moved, a last state is added where the path ends, and each
    state but the last heads to the next one; direction, type and velocity stay. *)
Theorem transform_path : forall mk (p : list rstate) (f : rfield) to g s_end, generateCoordTransf mk (f_crs f) to = Ok g ->
  let q := p ++ [s_end] in
  let full := q ++ (if Rlt_dec 0 (ps_len s_end) then
      [mkPS (N := RNum) (mkPoint (N := RNum) (px (ps_point s_end) + ps_len s_end * IZR (ps_dir s_end) * cos (ps_angle s_end))%R
         (py (ps_point s_end) + ps_len s_end * IZR (ps_dir s_end) * sin (ps_angle s_end))%R 0%R)
         (ps_angle s_end) 0%R (ps_dir s_end) (ps_type s_end) (ps_vel s_end)] else []) in
  exists p', transformPathWithFieldRef mk q f to = Ok p' /\
    Forall2 (fun s t => ps_point t = g (plus (ps_point s) (f_ref f)) /\ ps_dir t = ps_dir s /\ ps_type t = ps_type s /\ ps_vel t = ps_vel s) full p' /\
    (forall i s t, nth_error p' i = Some s -> nth_error p' (S i) = Some t -> points_to s t) /\
    (forall s t l l', full = l ++ [s] -> p' = l' ++ [t] -> ps_len t = ps_len s /\ ps_angle t = ps_angle s) /\
    ((forall s, In s q -> ps_dir s = 1%Z) -> contiguous p').
Proof.
  intros mk p f to g s_end G q full.
  set (mv := move_state (fun x => g (p_add RNum x (f_ref f)))).
  assert (E : transformPathWithFieldRef mk q f to = Ok (relink (map mv full))).
  { unfold transformPathWithFieldRef. assert (B : vec_back q = Ok s_end) by (unfold q, vec_back; now rewrite rev_app_distr).
    unfold path_atEnd. rewrite B. cbn [bind]. rewrite G. cbn [bind].
    destruct q as [|s0 q0] eqn:Q; [unfold q in Q; destruct p; discriminate|]. rewrite <- Q. unfold full.
    destruct (Rlt_dec 0 (ps_len s_end)) as [L|L].
    - replace (Rltb 0 (ps_len s_end)) with true by (symmetry; now apply Rltb_true). unfold path_addState. rewrite Q; reflexivity.
    - replace (Rltb 0 (ps_len s_end)) with false by (symmetry; apply Rltb_false; lra). rewrite Q, app_nil_r; reflexivity. }
  exists (relink (map mv full)). split; [exact E|]. destruct (relink_spec (map mv full)) as [L K].
  assert (PT : forall i s t, nth_error (relink (map mv full)) i = Some s -> nth_error (relink (map mv full)) (S i) = Some t -> points_to s t).
  { intros i s t S1 T1.
    destruct (nth_error (map mv full) i) as [s0|] eqn:S0; [|apply nth_error_None in S0; rewrite <- L in S0; apply nth_error_None in S0; congruence].
    destruct (nth_error (map mv full) (S i)) as [t0|] eqn:T0; [|apply nth_error_None in T0; rewrite <- L in T0; apply nth_error_None in T0; congruence].
    destruct (K i s0 S0) as [s' [A1 [A2 [_ [_ [_ [A3 _]]]]]]]. destruct (K (S i) t0 T0) as [t' [B1 [B2 _]]].
    assert (s' = s) by congruence. assert (t' = t) by congruence. subst s' t'. specialize (A3 t0 T0). unfold points_to in *. rewrite B2. exact A3. }
  split; [|split; [exact PT|split]].
  - apply Forall2_nth_error. split; [now rewrite L, map_length|]. intros i s t S1 T1.
    assert (S0 : nth_error (map mv full) i = Some (mv s)) by (now apply map_nth_error).
    destruct (K i (mv s) S0) as [t' [B1 [B2 [B3 [B4 [B5 _]]]]]]. assert (t' = t) by congruence. subst t'.
    rewrite B2, B3, B4, B5. repeat split.
  - intros s t l l' F P. assert (LL : length l = length l').
    { assert (X : length full = length (relink (map mv full))) by (now rewrite L, map_length). rewrite P, F, !app_length in X. cbn in X. lia. }
    assert (S0 : nth_error (map mv full) (length l) = Some (mv s)) by (apply map_nth_error; rewrite F, nth_error_app2, Nat.sub_diag by lia; reflexivity).
    destruct (K _ _ S0) as [t' [B1 [_ [_ [_ [_ [_ B6]]]]]]].
    assert (T1 : nth_error (relink (map mv full)) (length l) = Some t) by (rewrite P, LL, nth_error_app2, Nat.sub_diag by lia; reflexivity).
    assert (t' = t) by congruence. subst t'. rewrite B6; [split; reflexivity|].
    apply nth_error_None. rewrite map_length, F, app_length. cbn. lia.
  - intros D i s t S1 T1. destruct (PT i s t S1 T1) as [X [Y _]].
    assert (DS : ps_dir s = 1%Z).
    { destruct (nth_error (map mv full) i) as [s0|] eqn:S0; [|apply nth_error_None in S0; rewrite <- L in S0; apply nth_error_None in S0; congruence].
      destruct (K i s0 S0) as [s' [A1 [_ [A3 _]]]]. assert (s' = s) by congruence. subst s'. rewrite A3.
      apply nth_error_In in S0. apply in_map_iff in S0. destruct S0 as [u [<- U]]. change (ps_dir (mv u)) with (ps_dir u).
      unfold full in U. apply in_app_iff in U. destruct U as [U|U]; [now apply D|].
      assert (SE : ps_dir s_end = 1%Z) by (apply D; unfold q; apply in_or_app; right; now left).
      destruct (Rlt_dec 0 (ps_len s_end)); [destruct U as [<-|[]]; exact SE|destruct U]. }
    unfold leads_to. rewrite DS. split; [rewrite X|rewrite Y]; assert (Q2 : forall a b c : R, (a + b * c)%R = (a + 1 * b * c)%R) by (intros; ring); apply Q2.
Qed.
Print Assumptions transform_path.

Example transform_path_ex : exists p', transformPathWithFieldRef shift_mk
    [mkPS (N := RNum) (mkPoint (N := RNum) 0 0 0) 0 2 1 1 1]%R ex_field (txt "EPSG:4258") = Ok p' /\ length p' = 2 /\ contiguous p'.
Proof.
  destruct (transform_path shift_mk [] ex_field (txt "EPSG:4258") (fun p : pt => mkPoint (N := RNum) (px p + (4258 - 4326))%R (py p) (pz p))
    (mkPS (N := RNum) (mkPoint (N := RNum) 0 0 0) 0 2 1 1 1)%R eq_refl) as [p' [T [F [_ [_ C]]]]].
  exists p'. split; [exact T|]. split.
  - apply Forall2_length in F. rewrite <- F. cbn [app ps_len]. destruct (Rlt_dec 0 2) as [_|K]; [reflexivity|]. elim K. lra.
  - apply C. intros s [<-|[]]. reflexivity.
Qed.

(** C155 is false: the heading of a state driven backwards is set to the direction of
    travel, so that driving backwards along it leads away from the next state. *)
Theorem transform_path_backward_refuted : exists mk (p p' : list rstate) (f : rfield) to,
  contiguous p /\ transformPathWithFieldRef mk p f to = Ok p' /\ ~ contiguous p' /\
  (forall a b, mk a b = Ok (fun p : pt => p)).
Proof.
  set (s := (mkPS (N := RNum) (mkPoint (N := RNum) 0 0 0) 0 2 (-1) 1 1)%R).
  destruct (transform_path (fun _ _ => Ok (fun p => p)) [] ex_field (txt "EPSG:4258") (fun p => p) s eq_refl) as [p' [T [F [P _]]]].
  exists (fun _ _ => Ok (fun p => p)), [s], p', ex_field, (txt "EPSG:4258"). split.
  { intros i a b A B. destruct i as [|i]; [discriminate|]. destruct i; discriminate. }
  split; [exact T|]. split; [|reflexivity].
  intros C. cbn [app] in F. destruct (Rlt_dec 0 (ps_len s)) as [_|K]; [|elim K; cbn; lra]. cbn [app] in F.
  destruct (proj1 (Forall2_nth_error _ _ _) F) as [L N]. destruct p' as [|t0 [|t1 p']]; [discriminate|discriminate|].
  destruct (N 0 _ t0 eq_refl eq_refl) as [A1 [A2 _]]. destruct (N 1 _ t1 eq_refl eq_refl) as [B1 _].
  destruct (P 0 t0 t1 eq_refl eq_refl) as [X [Y [Z _]]]. destruct (C 0 t0 t1 eq_refl eq_refl) as [X' Y'].
  rewrite A2 in X', Y'. rewrite A1, B1 in *. cbn [ps_dir s] in X', Y'. revert X X' Y Y' Z.
  cbn [ps_point s px py pz plus f_ref ex_field ps_len ps_dir ps_angle]. rewrite cos_0, sin_0. intros X X' Y Y' Z.
  set (u := (ps_len t0 * cos (ps_angle t0))%R) in *.
  assert (U1 : u = (-2)%R) by lra. assert (U2 : (IZR (-1) * ps_len t0 * cos (ps_angle t0))%R = (- u)%R) by (unfold u; ring).
  rewrite U2 in X'. lra.
Qed.
Print Assumptions transform_path_backward_refuted.

(** transformPath only moves the points. *)
Theorem transform_path_plain : forall mk (p : list rstate) from to g, generateCoordTransf mk from to = Ok g ->
  exists p', transformPath mk p from to = Ok p' /\
    Forall2 (fun s t => ps_point t = g (ps_point s) /\ ps_dir t = ps_dir s /\ ps_type t = ps_type s /\ ps_vel t = ps_vel s /\
      ps_len t = ps_len s /\ ps_angle t = ps_angle s) p p' /\
    ((exists v, forall q, g q = plus q v) -> contiguous p -> contiguous p').
Proof.
  intros mk p from to g G. unfold transformPath. rewrite G. cbn [bind]. eexists. split; [reflexivity|]. split.
  - induction p as [|s p IH]; cbn [map]; constructor; auto. repeat split.
  - intros [v V] C i s t S1 T1.
    rewrite nth_error_map in S1, T1. destruct (nth_error p i) as [s0|] eqn:S0; [|discriminate]. destruct (nth_error p (S i)) as [t0|] eqn:T0; [|discriminate].
    injection S1 as <-. injection T1 as <-. destruct (C i s0 t0 S0 T0) as [X Y]. unfold leads_to, move_state in *. cbn [ps_point ps_len ps_dir ps_angle].
    assert (Q : forall a b c : R, (a + b + c)%R = (a + c + b)%R) by (intros; ring).
    rewrite !V. cbn [plus px py]. rewrite X, Y. split; apply Q.
Qed.
Print Assumptions transform_path_plain.
Example transform_path_plain_ex : exists p', transformPath shift_mk [mkPS (N := RNum) (mkPoint (N := RNum) 0 0 0) 0 2 1 1 1; mkPS (N := RNum) (mkPoint (N := RNum) 2 0 0) 0 1 1 1 1]%R
    (txt "EPSG:4326") (txt "EPSG:4258") = Ok p' /\ contiguous p'.
Proof.
  destruct (transform_path_plain shift_mk [mkPS (N := RNum) (mkPoint (N := RNum) 0 0 0) 0 2 1 1 1; mkPS (N := RNum) (mkPoint (N := RNum) 2 0 0) 0 1 1 1 1]%R
    (txt "EPSG:4326") (txt "EPSG:4258") (fun p : pt => mkPoint (N := RNum) (px p + (4258 - 4326))%R (py p) (pz p)) eq_refl) as (p' & E & _ & C).
  exists p'. split; [exact E|]. apply C.
  - exists (mkPoint (N := RNum) (4258 - 4326)%R 0%R 0%R). intro q. unfold plus, p_add. cbn. f_equal; change (carrier RNum) with R; symmetry; apply Rplus_0_r.
  - intros [|[|i]] s t S1 T1; [|discriminate|destruct i; discriminate]. injection S1 as <-. injection T1 as <-.
    unfold leads_to. cbn [ps_point ps_len ps_dir ps_angle px py]. rewrite cos_0, sin_0. split; simpl; lra.
Qed.

(** C156 is false: lengths and headings are those of the old coordinates. *)
Theorem transform_path_plain_refuted : exists mk (p p' : list rstate) from to,
  contiguous p /\ transformPath mk p from to = Ok p' /\ ~ contiguous p'.
Proof.
  set (g := fun p : pt => mkPoint (N := RNum) (px p * 2)%R (py p * 2)%R (pz p)).
  set (p := [mkPS (N := RNum) (mkPoint (N := RNum) 0 0 0) 0 1 1 1 1; mkPS (N := RNum) (mkPoint (N := RNum) 1 0 0) 0 0 1 1 1]%R).
  exists (fun _ _ => Ok g), p, (map (move_state g) p), (txt "EPSG:4326"), (txt "EPSG:4258"). split; [|split; [reflexivity|]].
  - intros [|[|i]] s t S1 T1; [|discriminate|destruct i; discriminate]. injection S1 as <-. injection T1 as <-.
    unfold leads_to. cbn [ps_point ps_len ps_dir ps_angle px py]. rewrite cos_0, sin_0. split; simpl; lra.
  - intros C. destruct (C 0 _ _ eq_refl eq_refl) as [X _]. revert X. unfold move_state, g. cbn [ps_point ps_len ps_dir ps_angle px py].
    rewrite cos_0. intros X. cbn in X. lra.
Qed.
Print Assumptions transform_path_plain_refuted.
