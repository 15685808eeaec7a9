(** Theorems about geometries given by GDAL. *)
From Coq Require Import List Arith Lia ZArith Bool Reals Lra.
From Verif Require Import Outcome Num ListAux Point_Model Swath_Model Container_Model Container_Proofs Angle_Model Angle_Spec Border_Model
  SwathGen_Model SwathGen_Spec SwathGen_Proofs Plan_Spec Ogr_Model Ogr_Spec Ogr_Proofs Ogr_Proofs2.
Import ListNotations.
Open Scope R_scope.

(** *** Lines *)
(** Appending a geometry that is no collection adds its lines or rings, but no single empty
    line. *)
Theorem append_curves : forall (N : Num) data (g : ogr N), (forall gs, g <> GCollection gs) ->
  exists ls, ml_append N data g = data ++ ls /\ (ls = curves_of g \/ (curves_of g = [[]] /\ ls = [])).
Proof.
  intros N data g H. destruct g; cbn [ml_append curves_of].
  - exists []. rewrite app_nil_r. auto.
  - destruct l as [|p l]; cbn [line_isEmpty].
    + exists []. rewrite app_nil_r. auto.
    + exists [p :: l]. auto.
  - exists []. rewrite app_nil_r. auto.
  - exists ls. rewrite fold_add. auto.
  - exists rings. rewrite fold_add. auto.
  - exists (concat ps). rewrite fold_add2. auto.
  - exfalso. now apply (H gs).
Qed.

Example append_curves_ex : (forall gs, GLines (N := RNum) [[P 0 0; P 1 0]; [P 0 1; P 1 1]] <> GCollection gs) /\
  curves_of (GPolygons [peaks]) = peaks.
Proof. split; [discriminate|reflexivity]. Qed.

(** A collection loses all its lines. *)
Theorem append_collection_refuted : exists g : ogr RNum, curves_of g = [[P 4 1; P 8 1]; [P 4 3; P 8 3]] /\ ml_of_ogr RNum g = [].
Proof. exists peak_cut. split; reflexivity. Qed.

(** The lines in a cell, when GEOS gives what they have in common, as points only or lines
    only: all pieces are in the cell, and every point where a stretch of a line in the cell
    begins is on a piece. *)
Theorem lines_inside : forall region geos lines c g, geos lines c = Some g -> cut_exactly region lines c g -> unmixed g ->
  exists pieces, cell_getLinesInside RNum geos c lines = Ok pieces /\
    (forall piece q, In piece pieces -> on_line piece q -> (exists l, In l lines /\ on_line l q) /\ region c q) /\
    (forall line q, In line lines -> stretch region c line q -> exists piece, In piece pieces /\ on_line piece q).
Proof.
  intros region geos lines c g G E U. exists (ml_of_ogr RNum g). unfold cell_getLinesInside, ml_intersection. rewrite G.
  split; [reflexivity|]. split.
  - intros piece q I O. apply (pieces_unmixed region lines c g E U). eauto.
  - intros line q. now apply stretch_pieces.
Qed.

Example lines_inside_ex : exists g line q, cut_exactly in_polygon [[P (-12) 3; P 12 3]] peaks g /\ unmixed g /\
  In line [[P (-12) 3; P 12 3]] /\ stretch in_polygon peaks line q.
Proof.
  exists (GLine [P 4 3; P 8 3]), [P (-12) 3; P 12 3], (P 4 3). split; [|split; [exact I|split; [left; reflexivity|]]].
  - intros q. cbn [points_of]. rewrite flat_segment by lra. split.
    + intros [x [-> H]]. split; [|apply in_peaks; lra]. eexists; split; [left; reflexivity|]. apply flat_segment; [lra|]. exists x. split; [reflexivity|lra].
    + intros [[l [[<-|[]] O]] G]. apply flat_segment in O; [|lra]. destruct O as [x [-> H]]. apply in_peaks in G; [|lra].
      destruct G as [G|[G _]]; [|lra]. exists x. auto.
  - exists (P 8 3). split; [intros E; apply (f_equal (@px RNum)) in E; cbn [px P] in E; lra|].
    intros s H. assert (O : on_line [P 4 3; P 8 3] s) by (left; exact H). apply flat_segment in O; [|lra]. destruct O as [x [-> X]].
    split; [apply flat_segment; [lra|exists x; split; [reflexivity|lra]]|apply in_peaks; lra].
Qed.

(** Hence the clipping is faithful, as [plan_route_covers] asks for, wherever the answer is
    exact and not mixed. *)
Theorem lines_clipped : forall region (geos : list (list pt) -> list (list pt) -> ogr RNum),
  clips (fun lines c => ml_of_ogr RNum (geos lines c))
    (fun c lines line q => cut_exactly region lines c (geos lines c) /\ unmixed (geos lines c) /\ stretch region c line q).
Proof. intros region geos lines c line q L _ [E [U S_]]. now apply (stretch_pieces region lines c (geos lines c) line q). Qed.

(** A cell with two peaks, one of them just reaching the first line: the exact answer is a
    collection of a point and the two pieces, and no swath is made, although both lines go
    through the cell for a length of 4. *)
Theorem swaths_lost_refuted : exists (cell : rcell) w lines (g : ogr RNum), 0 < w /\
  (forall fuel, (2 <= fuel)%nat -> sg_lines fuel false 0 w cell = Ok lines) /\
  cut_exactly in_polygon lines cell g /\
  (exists line q, In line lines /\ stretch in_polygon cell line q) /\
  forall (geos : list (list rpoint) -> rcell -> ogr RNum) wkt fuel, geos lines cell = g -> (2 <= fuel)%nat ->
    sg_generateSwaths (fun ls c => ml_of_ogr RNum (geos ls c)) wkt fuel false 0 w cell = Ok [].
Proof.
  exists peaks, 2, peak_lines, peak_cut. split; [lra|]. split; [exact peaks_lines|]. split; [exact peak_cut_exact|].
  split; [exists [P (-12) 1; P 12 1], (P 4 1); split; [left; reflexivity|exact peak_stretch]|].
  intros geos wkt fuel G F. unfold sg_generateSwaths. rewrite (peaks_lines fuel F). cbn [bind]. rewrite G. reflexivity.
Qed.

(** In the same way the line from a point of the cell to its border is lost when its
    prolongation touches the cell again. *)
Theorem line_until_border_lost_refuted : exists (cell : rcell) p ang (g : ogr RNum),
  cut_exactly in_polygon [cell_createSemiLongLine cell p ang] cell g /\
  (exists q, on_line (cell_createSemiLongLine cell p ang) q /\ on_border cell q /\ dist2 p q = 4) /\
  forall geos : list (list rpoint) -> rcell -> ogr RNum, geos [cell_createSemiLongLine cell p ang] cell = g ->
    cell_createLineUntilBorder (fun ls c => ml_of_ogr RNum (geos ls c)) cell p ang = [].
Proof.
  exists peaks, (P 6 1), PI, ray_cut.
  assert (E : cell_createSemiLongLine peaks (P 6 1) PI = [P 6 1; P (-6) 1]).
  { unfold cell_createSemiLongLine, pointFromAngle, p_getPointFromAngle. rewrite cos_PI, sin_PI.
    assert (L : cell_getMinSafeLength peaks = 12).
    { assert (NE : concat peaks <> []) by discriminate. unfold cell_getMinSafeLength.
      destruct (env_extent px peaks NE) as [[a [Ia Ea]] [[b [Ib Eb]] Hx]], (env_extent py peaks NE) as [[c [Ic Ec]] [[d [Id Ed]] Hy]].
      rewrite <- Ea, <- Eb, <- Ec, <- Ed in *. clear Ea Eb Ec Ed. unfold peaks in *. cbn [concat app] in *.
      pose proof (Hx (P 0 0) ltac:(cbn; tauto)) as H1. pose proof (Hx (P 8 0) ltac:(cbn; tauto)) as H2.
      pose proof (Hy (P 0 0) ltac:(cbn; tauto)) as H3. pose proof (Hy (P 8 4) ltac:(cbn; tauto)) as H4.
      assert (Bx : forall p, In p [P 0 0; P 8 0; P 8 4; P 4 4; P 4 (/ 2); P 2 1; P 0 0] -> 0 <= px p <= 8 /\ 0 <= py p <= 4).
      { intros p H. cbn [In] in H. repeat destruct H as [<-|H]; [..|destruct H]; unfold P; cbn [px py]; lra. }
      pose proof (Bx a Ia). pose proof (Bx b Ib). pose proof (Bx c Ic). pose proof (Bx d Id). clear Hx Hy Bx. cbn [P px py] in *. lra. }
    rewrite L. unfold P. cbn. repeat f_equal; refine (_ : @eq R _ _); ring. }
  rewrite E. split; [exact ray_cut_exact|]. split.
  - exists (P 4 1). split; [left; exists (/ 6); unfold P; cbn [px py pz]; repeat split; lra|]. split; [apply border_peaks; lra|].
    unfold dist2, P. cbn [px py]. ring.
  - intros geos G. unfold cell_createLineUntilBorder. rewrite E, G. cbn [ml_of_ogr ray_cut ml_append coll_size forallb firstn fold_left fst].
    replace (p_eq RNum (P 6 1) (P 6 1)) with true; [reflexivity|]. symmetry. unfold p_eq, P. cbn [px py pz].
    assert (Z : forall x : R, nltb RNum (nabs RNum (nsub RNum x x)) (p_eps RNum) = true).
    { intros x. apply Rltb_true. change (Rabs (x - x) < p_eps RNum). replace (x - x) with 0 by ring. rewrite Rabs_R0.
      unfold p_eps. cbn. lra. }
    rewrite !Z. reflexivity.
Qed.

(** *** Polygons *)
(** Cells made of a geometry have its polygons, provided that the members of a collection
    are single geometries. *)
Theorem cells_of_geometry : forall (N : Num) (g : ogr N),
  (forall gs, g = GCollection gs -> forall h, In h gs -> (forall ps, h <> GPolygons ps) /\ forall hs, h <> GCollection hs) ->
  cells_of_ogr N g = polygons_of g.
Proof.
  intros N g H. destruct g as [| | | | | |gs]; try reflexivity. cbn [cells_of_ogr polygons_of]. specialize (H gs eq_refl).
  assert (G : forall d, fold_left (fun d g => match g with GPolygon rings => coll_addGeometry d rings | _ => d end) gs d = d ++
    (fix all (gs : list (ogr N)) : list (list (list (point N))) := match gs with [] => [] | g :: gs => polygons_of g ++ all gs end) gs).
  { induction gs as [|h gs IH]; intros d; cbn [fold_left]; [now rewrite app_nil_r|].
    rewrite IH by (intros; apply H; now right). destruct (H h (or_introl eq_refl)) as [H1 H2].
    destruct h; cbn [polygons_of app]; try reflexivity.
    - unfold coll_addGeometry. now rewrite <- app_assoc.
    - exfalso. now apply (H1 ps).
    - exfalso. now apply (H2 gs0). }
  apply (G []).
Qed.

Example cells_of_geometry_ex : cells_of_ogr RNum (GCollection [GPoint (P 0 0); GPolygon peaks; GLine [P 0 0; P 1 0]]) = [peaks] /\
  forall h, In h [GPoint (P 0 0); GPolygon peaks; GLine [P 0 0; P 1 0]] -> (forall ps, h <> GPolygons ps) /\ forall hs, h <> GCollection hs.
Proof. split; [reflexivity|]. intros h [<-|[<-|[<-|[]]]]; split; discriminate. Qed.

(** Several polygons as one member of a collection are lost. *)
Theorem cells_of_collection_refuted : exists g : ogr RNum, polygons_of g = [peaks] /\ cells_of_ogr RNum g = [].
Proof. exists (GCollection [GPolygons [peaks]]). split; reflexivity. Qed.

(** A cell is made of a polygon only: growing or shrinking a cell into something else, and
    the convex hull of points on a line, throw. *)
Theorem cell_of_geometry : forall (N : Num) (g : ogr N),
  (forall c, cell_of_ogr N g = Ok c <-> g = GPolygon c) /\ ((forall c, g <> GPolygon c) -> cell_of_ogr N g = Throw InvalidArgument).
Proof.
  intros N g. split.
  - intros c. destruct g; cbn [cell_of_ogr]; split; intros E; try discriminate; congruence.
  - intros H. destruct g; try reflexivity. exfalso. now apply (H rings).
Qed.

Example cell_of_geometry_ex : forall hull, hull [[P 0 0; P 1 0; P 2 0]] = Some (GLine [P 0 0; P 2 0]) ->
  cell_convexHull RNum hull [[P 0 0; P 1 0; P 2 0]] = Throw InvalidArgument.
Proof. intros hull H. unfold cell_convexHull. rewrite H. reflexivity. Qed.

(** The band round a ring.  With an exact library: if what is left of the grown cell without
    the shrunk one is a single polygon, this is returned; if shrinking does not leave a single
    polygon, it throws. *)
Theorem ring_band : forall (region : list (list pt) -> pt -> Prop) buffer difference wkt (r : list pt) w out, let c := cell_of_ring RNum wkt r in
  buffer c (Rabs w) = Some (GPolygon out) ->
  (forall inner d, buffer c (- Rabs w) = Some (GPolygon inner) -> difference [out] inner = Some (GPolygon d) ->
     (forall q, region d q <-> region out q /\ ~ region inner q) -> concat d <> [] ->
     exists b, ring_buffer RNum buffer difference wkt r w = Ok b /\ forall q, region b q <-> region out q /\ ~ region inner q) /\
  (forall g, buffer c (- Rabs w) = Some g -> (forall inner, g <> GPolygon inner) ->
     ring_buffer RNum buffer difference wkt r w = Throw InvalidArgument).
Proof.
  intros region buffer difference wkt r w out c B. split.
  - intros inner d I D H NE. exists d. split; [|exact H]. unfold ring_buffer, cell_buffer. fold c. cbn [nabs nopp RNum]. rewrite B, I. cbn [res_geom cell_of_ogr bind].
    unfold cells_difference1, coll_addGeometry. cbn [app]. rewrite D. cbn [res_geom bind cells_of_ogr].
    unfold coll_getGeometry, coll_size. cbn [forallb length].
    assert (E : cell_isEmpty RNum d = false).
    { destruct (cell_isEmpty RNum d) eqn:E; [|reflexivity]. exfalso. apply NE. unfold cell_isEmpty in E. rewrite forallb_forall in E.
      clear -E. induction d as [|x d IH]; [reflexivity|]. cbn [concat]. assert (X : line_isEmpty RNum x = true) by (apply E; now left).
      destruct x; [|discriminate]. apply IH. intros; apply E; now right. }
    rewrite E. reflexivity.
  - intros g G H. unfold ring_buffer, cell_buffer. fold c. cbn [nabs nopp RNum]. rewrite B, G. cbn [res_geom cell_of_ogr bind].
    destruct g; try reflexivity. exfalso. now apply (H rings).
Qed.

Example ring_band_ex : forall region : list (list pt) -> pt -> Prop, exists buffer difference,
  buffer (cell_of_ring RNum (fun p => p) (concat peaks)) (Rabs 1) = Some (GPolygon peaks) /\
  buffer (cell_of_ring RNum (fun p => p) (concat peaks)) (- Rabs 1) = Some (GPolygons (N := RNum) [peaks; peaks]) /\
  ring_buffer RNum buffer difference (fun p => p) (concat peaks) 1 = Throw InvalidArgument.
Proof.
  intros region. exists (fun _ w => if Rlt_dec w 0 then Some (GPolygons (N := RNum) [peaks; peaks]) else Some (GPolygon peaks)), (fun _ _ => None).
  assert (A : Rabs 1 = 1) by (apply Rabs_right; lra).
  assert (B1 : (if Rlt_dec (Rabs 1) 0 then Some (GPolygons (N := RNum) [peaks; peaks]) else Some (GPolygon peaks)) = Some (GPolygon peaks)) by (destruct (Rlt_dec (Rabs 1) 0); [lra|reflexivity]).
  assert (B2 : (if Rlt_dec (- Rabs 1) 0 then Some (GPolygons (N := RNum) [peaks; peaks]) else Some (GPolygon peaks)) = Some (GPolygons (N := RNum) [peaks; peaks])) by (destruct (Rlt_dec (- Rabs 1) 0); [reflexivity|lra]).
  split; [exact B1|]. split; [exact B2|].
  exact (proj2 (ring_band region (fun _ w => if Rlt_dec w 0 then Some (GPolygons (N := RNum) [peaks; peaks]) else Some (GPolygon peaks))
    (fun _ _ => None) (fun p => p) (concat peaks) 1 peaks B1) _ B2 ltac:(discriminate)).
Qed.

(** *** Parts *)
(** The segments of a line or ring are its successive pairs of points. *)
Theorem line_segments : forall (N : Num) (l : list (point N)), l <> [] -> (Z.of_nat (length l) < 2 ^ 64)%Z ->
  getLineSegments N l = Ok (pairs l) /\ length (pairs l) = (length l - 1)%nat.
Proof.
  intros N l NE B. split.
  - unfold getLineSegments. rewrite (segments_from l NE B (length l - 1)) by lia. reflexivity.
  - unfold pairs. rewrite map_length, combine_length. destruct l as [|a l]; [contradiction|]. cbn [tl length]. lia.
Qed.

Example line_segments_ex : getLineSegments RNum [P 0 0; P 1 0; P 1 1] = Ok [[P 0 0; P 1 0]; [P 1 0; P 1 1]].
Proof. apply line_segments; [discriminate|reflexivity]. Qed.

(** An empty line does not give an empty list of segments: size() - 1 wraps round, and the
    first point is asked for. *)
Theorem no_segments_refuted : exists l : list pt, l = [] /\ getLineSegments RNum l <> Ok [] .
Proof. exists []. split; [reflexivity|]. cbn. discriminate. Qed.

(** [at] and [operator[]] give the part asked for and throw for every other int, negative
    ones included; [back] gives the last part and throws without one. *)
Theorem part_at : forall (A : Type) (isEmpty : A -> bool) (l : list A) (i : Z), (Z.of_nat (length l) <= 2 ^ 31)%Z -> (- 2 ^ 31 <= i < 2 ^ 31)%Z ->
  (exists a, In a l /\ isEmpty a = false) ->
  (forall k a, i = Z.of_nat k -> nth_error l k = Some a -> coll_at isEmpty l i = Ok a) /\
  ((i < 0 \/ Z.of_nat (length l) <= i)%Z -> coll_at isEmpty l i = Throw OutOfRange) /\
  exists a, coll_back isEmpty l = Ok a /\ nth_error l (length l - 1) = Some a.
Proof.
  intros A isEmpty l i B I [x [Ix Ex]].
  assert (SZ : coll_size isEmpty l = length l).
  { unfold coll_size. destruct (forallb isEmpty l) eqn:F; [|reflexivity]. rewrite forallb_forall in F. rewrite (F x Ix) in Ex. discriminate. }
  assert (G : forall k a, nth_error l k = Some a -> coll_at isEmpty l (Z.of_nat k) = Ok a).
  { intros k a K. assert (L : (k < length l)%nat) by (apply nth_error_Some; rewrite K; discriminate).
    unfold coll_at, coll_getGeometry. rewrite SZ, Z.mod_small by lia. rewrite (proj2 (Z.leb_gt _ _)) by lia. rewrite Nat2Z.id.
    rewrite (proj2 (Nat.leb_gt _ _)) by lia. unfold vec_index. now rewrite K. }
  assert (L0 : (0 < length l)%nat) by (destruct l; [destruct Ix|cbn; lia]).
  split; [|split].
  - intros k a -> K. now apply G.
  - intros H. unfold coll_at. rewrite SZ. destruct (Z.ltb_spec i 0).
    + assert (E : (i + 2 ^ 64 = i mod 2 ^ 64)%Z) by (apply (Z.mod_unique _ _ (-1)); lia). rewrite <- E.
      now rewrite (proj2 (Z.leb_le _ _)) by lia.
    + rewrite Z.mod_small by lia. now rewrite (proj2 (Z.leb_le _ _)) by lia.
  - destruct (nth_error l (length l - 1)) as [a|] eqn:E; [|apply nth_error_None in E; lia]. exists a. split; [|reflexivity].
    unfold coll_back. rewrite SZ. replace (Z.of_nat (length l) - 1)%Z with (Z.of_nat (length l - 1)) by lia. now apply G.
Qed.

Example part_at_ex : coll_at (line_isEmpty RNum) [[P 0 0]; []] 0 = Ok [P 0 0] /\ coll_at (line_isEmpty RNum) [[P 0 0]; []] (-1) = Throw OutOfRange /\
  coll_back (line_isEmpty RNum) [[]; []] = Throw OutOfRange.
Proof. repeat split; reflexivity. Qed.

(** The angles at the ends of a line are those of its first and last segment; a line of
    fewer than two points throws. *)
Theorem end_angles : forall (N : Num) (angle_of : point N -> N) (l : list (point N)), (Z.of_nat (length l) <= 2 ^ 31)%Z ->
  (forall a b t, l = a :: b :: t -> startAngle N angle_of l = Ok (angle_of (p_sub N b a))) /\
  (forall t a b, l = t ++ [a; b] -> endAngle N angle_of l = Ok (angle_of (p_sub N b a))) /\
  ((length l < 2)%nat -> startAngle N angle_of l = Throw OutOfRange /\ endAngle N angle_of l = Throw OutOfRange).
Proof.
  intros N angle_of l B. split; [|split].
  - intros a b t ->. reflexivity.
  - intros t a b ->. unfold endAngle, line_fromEnd. rewrite app_length in *. cbn [length] in *.
    assert (NE : exists x, In x (t ++ [a; b]) /\ (fun _ : point N => false) x = false) by (exists a; split; [apply in_or_app; right; now left|reflexivity]).
    destruct (part_at (point N) (fun _ => false) (t ++ [a; b]) (Z.of_nat (length t + 2) - 1 - Z.of_nat 0)) as [H1 _]; [rewrite app_length; exact B|lia|exact NE|].
    rewrite (H1 (length t + 1)%nat b) by (try lia; rewrite nth_error_app2 by lia; replace (length t + 1 - length t)%nat with 1%nat by lia; reflexivity). cbn [bind].
    destruct (part_at (point N) (fun _ => false) (t ++ [a; b]) (Z.of_nat (length t + 2) - 1 - Z.of_nat 1)) as [H2 _]; [rewrite app_length; exact B|lia|exact NE|].
    rewrite (H2 (length t) a) by (try lia; rewrite nth_error_app2 by lia; rewrite Nat.sub_diag; reflexivity). reflexivity.
  - intros L. destruct l as [|a [|b l]]; [| |cbn in L; lia]; split; reflexivity.
Qed.

Example end_angles_ex : startAngle RNum (fun p => px p) [P 0 0; P 1 0; P 3 0] = Ok (px (p_sub RNum (P 1 0) (P 0 0))) /\
  endAngle RNum (fun p => px p) [P 0 0; P 1 0; P 3 0] = Ok (px (p_sub RNum (P 3 0) (P 1 0))).
Proof. split; reflexivity. Qed.

(** Adding a ring to a cell of a collection keeps the other cells and the rings there are;
    an index without a cell is undefined behaviour. *)
Theorem ring_added : forall (N : Num) wkt (cs : list (list (list (point N)))) i r,
  ((length cs <= i)%nat -> cells_addRing N wkt cs i r = UB) /\
  (forall c, nth_error cs i = Some c -> exists cs', cells_addRing N wkt cs i r = Ok cs' /\ length cs' = length cs /\
     nth_error cs' i = Some (c ++ [map wkt r]) /\ forall j, j <> i -> nth_error cs' j = nth_error cs j).
Proof.
  intros N wkt cs i r. unfold cells_addRing, vec_index. split.
  - intros L. apply nth_error_None in L. now rewrite L.
  - intros c C. rewrite C; cbn [bind].
    apply nth_error_split in C as [l1 [l2 [-> L1]]]. exists (l1 ++ (c ++ [map wkt r]) :: l2). subst i. split.
    + apply vec_set_mid.
    + split; [now rewrite !app_length|]. split; [rewrite nth_error_app2, Nat.sub_diag by lia; reflexivity|].
      intros j J. destruct (Nat.lt_ge_cases j (length l1)).
      * now rewrite !nth_error_app1 by lia.
      * rewrite !nth_error_app2 by lia. destruct (j - length l1)%nat eqn:E; [lia|reflexivity].
Qed.

Example ring_added_ex : cells_addRing RNum (fun p => p) [peaks; [[P 0 0]]] 1 [P 1 1] = Ok [peaks; [[P 0 0]; [P 1 1]]].
Proof. reflexivity. Qed.

(** Unlike Cell::addRing it does not close the ring. *)
Theorem ring_added_open_refuted : exists (r : list pt) c, cells_addRing RNum (fun p => p) [[]] 0 r = Ok [[c]] /\
  nth_error c 0 = Some (P 0 0) /\ last c (P 0 0) = P 1 1 /\ cell_addRing RNum (fun p => p) [] r = [c ++ [P 0 0]].
Proof.
  exists [P 0 0; P 1 0; P 1 1], [P 0 0; P 1 0; P 1 1]. split; [reflexivity|]. split; [reflexivity|]. split; [reflexivity|].
  unfold cell_addRing, line_clone, closeRing. cbn [map app last]. replace (pt_same RNum (P 0 0) (P 1 1)) with false; [reflexivity|].
  symmetry. unfold pt_same, P. cbn [px py pz neqb RNum]. unfold Reqb. destruct (Req_EM_T 0 1); [lra|reflexivity].
Qed.

(** The border of a cell is its first ring and its holes are the rings after it; asking for
    one that is not there is undefined behaviour, at every level. *)
Theorem rings_of_cells : forall (N : Num) (cs : list (list (list (point N)))) i j,
  (forall r, getCellBorder N cs i = Ok r <-> exists holes, nth_error cs i = Some (r :: holes)) /\
  (forall r, cells_getInteriorRing N cs i j = Ok r <-> exists b before after, nth_error cs i = Some (b :: before ++ r :: after) /\ length before = j) /\
  (forall c, nth_error cs i = Some c -> cells_getInteriorRing N cs i j = cell_getInteriorRing N c j) /\
  ((forall r, getCellBorder N cs i <> Ok r) -> getCellBorder N cs i = UB) /\
  ((forall r, cells_getInteriorRing N cs i j <> Ok r) -> cells_getInteriorRing N cs i j = UB).
Proof.
  intros N cs i j. unfold getCellBorder, cells_getInteriorRing, cell_getInteriorRing, vec_index.
  destruct (nth_error cs i) as [[|b holes]|]; cbn [bind nth_error tl].
  - split; [|split; [|split; [|split]]].
    + intros r. split; [discriminate|intros [h E]; discriminate].
    + intros r. destruct j; cbn [nth_error]; (split; [discriminate|intros (? & ? & ? & E & _); discriminate]).
    + intros c E. injection E as <-. reflexivity.
    + reflexivity.
    + destruct j; reflexivity.
  - split; [|split; [|split; [|split]]].
    + intros r. split; [intros E; injection E as <-; eauto|intros [h E]; injection E as <- _; reflexivity].
    + intros r. split.
      * intros E. destruct (nth_error holes j) as [x|] eqn:X; [|discriminate]. injection E as <-.
        apply nth_error_split in X as [l1 [l2 [-> L]]]. eauto 6.
      * intros (b' & l1 & l2 & E & L). injection E as <- ->. rewrite nth_error_app2, L, Nat.sub_diag by lia. reflexivity.
    + intros c E. injection E as <-. reflexivity.
    + intros H. exfalso. now apply (H b).
    + intros H. destruct (nth_error holes j) as [x|]; [exfalso; now apply (H x)|reflexivity].
  - split; [|split; [|split; [|split]]]; try reflexivity; try discriminate.
    + intros r. split; [discriminate|intros [h E]; discriminate].
    + intros r. split; [discriminate|intros (? & ? & ? & E & _); discriminate].
Qed.

Example rings_of_cells_ex : cells_getInteriorRing RNum [peaks; [[P 0 0]; [P 1 1]]] 1 0 = Ok [P 1 1] /\ getCellBorder RNum [[]] 0 = UB.
Proof. split; reflexivity. Qed.

(** Adding lines to lines appends all of them, unless all are empty. *)
Theorem lines_added : forall (N : Num) (data lines : list (list (point N))),
  ml_addLines N data lines = data ++ lines \/ (concat lines = [] /\ ml_addLines N data lines = data).
Proof.
  intros N data lines. unfold ml_addLines, coll_size. destruct (forallb (line_isEmpty N) lines) eqn:F.
  - right. split; [|reflexivity]. rewrite forallb_forall in F. induction lines as [|x l IH]; [reflexivity|].
    cbn [concat]. assert (X : line_isEmpty N x = true) by (apply F; now left). destruct x; [|discriminate]. apply IH. intros; apply F; now right.
  - left. rewrite firstn_all. apply fold_add.
Qed.

Example lines_added_ex : ml_addLines RNum [[P 0 0]] [[]; [P 1 1]] = [[P 0 0]; []; [P 1 1]].
Proof. reflexivity. Qed.

(** A null result of the library, which is how it reports a failure, is undefined behaviour
    wherever it is used. *)
Theorem null_geometry : forall (N : Num) geos buffer difference wkt hull (lines : list (list (point N))) c w cs r,
  (geos lines c = None -> cell_getLinesInside N geos c lines = UB) /\
  (buffer c w = None -> cell_buffer N buffer c w = UB) /\
  (difference cs c = None -> cells_difference1 N difference cs c = UB) /\
  (hull c = None -> cell_convexHull N hull c = UB) /\
  (buffer (cell_of_ring N wkt r) (nabs N w) = None -> ring_buffer N buffer difference wkt r w = UB).
Proof.
  intros N geos buffer difference wkt hull lines c w cs r.
  unfold cell_getLinesInside, ml_intersection, cell_convexHull, ring_buffer, cells_difference1, cell_buffer, res_geom.
  split; [|split; [|split; [|split]]]; intros E; rewrite E; reflexivity.
Qed.

Example null_geometry_ex : exists geos : list (list pt) -> list (list pt) -> option (ogr RNum), geos peak_lines peaks = None.
Proof. now exists (fun _ _ => None). Qed.

(** If nothing is left of the grown cell without the shrunk one, the band is an empty cell. *)
Theorem ring_band_empty : forall (N : Num) buffer difference wkt (r : list (point N)) w out inner g,
  buffer (cell_of_ring N wkt r) (nabs N w) = Some (GPolygon out) ->
  buffer (cell_of_ring N wkt r) (nopp N (nabs N w)) = Some (GPolygon inner) ->
  difference [out] inner = Some g -> polygons_of g = [] -> ring_buffer N buffer difference wkt r w = Ok [].
Proof.
  intros N buffer difference wkt r w out inner g B1 B2 D E. unfold ring_buffer, cell_buffer. rewrite B1, B2. cbn [res_geom cell_of_ogr bind].
  unfold cells_difference1, coll_addGeometry. cbn [app]. rewrite D. cbn [res_geom bind].
  assert (C : cells_of_ogr N g = []).
  { clear D. destruct g as [| | | | |ps|gs]; try reflexivity; cbn [cells_of_ogr polygons_of] in *; [discriminate|exact E|].
    induction gs as [|h gs IH]; [reflexivity|]. cbn [fold_left]. apply app_eq_nil in E as [E1 E2].
    destruct h; cbn [polygons_of] in E1; try discriminate; apply IH; exact E2. }
  rewrite C. reflexivity.
Qed.

Example ring_band_empty_ex : polygons_of (N := RNum) (GCollection []) = [] /\ polygons_of (N := RNum) (GPolygons []) = [].
Proof. split; reflexivity. Qed.

Print Assumptions append_curves.
Print Assumptions append_collection_refuted.
Print Assumptions lines_inside.
Print Assumptions lines_clipped.
Print Assumptions swaths_lost_refuted.
Print Assumptions line_until_border_lost_refuted.
Print Assumptions cells_of_geometry.
Print Assumptions cells_of_collection_refuted.
Print Assumptions cell_of_geometry.
Print Assumptions ring_band.
Print Assumptions line_segments.
Print Assumptions no_segments_refuted.
Print Assumptions part_at.
Print Assumptions end_angles.
Print Assumptions ring_added.
Print Assumptions ring_added_open_refuted.
Print Assumptions rings_of_cells.
Print Assumptions lines_added.
Print Assumptions null_geometry.
Print Assumptions ring_band_empty.
