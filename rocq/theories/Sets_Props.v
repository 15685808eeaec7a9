(** Theorems about set operations on cells. *)
From Coq Require Import List Arith Lia ZArith Bool Reals Lra Classical.
From Verif Require Import Outcome Num ListAux Point_Model Angle_Spec Container_Model Border_Model SwathGen_Model SwathGen_Props Plan_Spec
  Ogr_Model Ogr_Spec Ogr_Proofs Ogr_Proofs2 Sets_Model Sets_Spec Sets_Proofs.
Import ListNotations.
Open Scope R_scope.

(** The common part of cells.  With a library that gives the common points: the cells returned
    have only points common to both, and all the common area, stray points and lines being
    dropped. *)
Theorem cells_common : forall region Intersection, gives_common region Intersection ->
  (forall c d cs, cell_cell_intersection RNum Intersection c d = Ok cs ->
     let A q := region c q /\ region d q in between region A cs A) /\
  (forall this c cs, cells_cell_intersection RNum Intersection this c = Ok cs ->
     let A q := in_cells region this q /\ region c q in between region A cs A) /\
  (forall this c cs, cells_intersection RNum Intersection this c = Ok cs ->
     let A q := in_cells region this q /\ in_cells region c q in between region A cs A) /\
  (forall this c, getCellsInside RNum Intersection this c = cells_intersection RNum Intersection this c).
Proof.
  intros region op H. split; [|split; [|split; [|reflexivity]]].
  - intros c d cs E A. unfold cell_cell_intersection, res_cells, res_geom in E.
    destruct (op (GPolygon c) (GPolygon d)) as [g|] eqn:G; [|discriminate]. injection E as <-. destruct (H _ _ _ G) as [F P].
    apply (cells_same_area region g A A F); intros q; apply P.
  - intros this c cs E A. unfold cells_cell_intersection, res_cells, res_geom in E.
    destruct (op (GPolygon c) (GPolygons this)) as [g|] eqn:G; [|discriminate]. injection E as <-. destruct (H _ _ _ G) as [F P].
    apply (cells_same_area region g A A F); intros q Q.
    + apply P. split; apply Q.
    + apply P in Q. split; apply Q.
  - intros this c cs E A. unfold cells_intersection, res_cells, res_geom in E.
    destruct (op (GPolygons this) (GPolygons c)) as [g|] eqn:G; [|discriminate]. injection E as <-. destruct (H _ _ _ G) as [F P].
    apply (cells_same_area region g A A F); intros q; apply P.
Qed.

(** Cells without others: no point within the others is left, and all the rest of the area is. *)
Theorem cells_rest : forall region Difference, gives_rest region Difference ->
  (forall this c cs, cells_difference RNum Difference this c = Ok cs ->
     between region (fun q => in_cells region this q /\ ~ in_cells region c q) cs (fun q => in_cells region this q /\ ~ interior (in_cells region c) q)) /\
  (forall this c cs, cells_cell_difference RNum Difference this c = Ok cs ->
     between region (fun q => in_cells region this q /\ ~ region c q) cs (fun q => in_cells region this q /\ ~ interior (region c) q)).
Proof.
  intros region op H. split.
  - intros this c cs E. unfold cells_difference, res_cells, res_geom in E.
    destruct (op (GPolygons this) (GPolygons c)) as [g|] eqn:G; [|discriminate]. injection E as <-. destruct (H _ _ _ G) as (F & P1 & P2).
    apply (cells_same_area region g _ _ F); [intros q [Q1 Q2]; now apply P1|exact P2].
  - intros this c cs E. unfold cells_cell_difference, res_cells, res_geom in E.
    destruct (op (GPolygons this) (GPolygon c)) as [g|] eqn:G; [|discriminate]. injection E as <-. destruct (H _ _ _ G) as (F & P1 & P2).
    apply (cells_same_area region g _ _ F); [intros q [Q1 Q2]; now apply P1|exact P2].
Qed.

(** Cells joined with others, or among themselves. *)
Theorem cells_all : forall region Union UnionCascaded, gives_all region Union ->
  (forall a g, UnionCascaded a = Some g -> single_members g /\ forall q, points_of region g q <-> points_of region a q) ->
  (forall this c cs, cells_unionOp RNum Union this c = Ok cs ->
     let A q := in_cells region this q \/ in_cells region c q in between region A cs A) /\
  (forall this c cs, cells_cell_unionOp RNum Union this c = Ok cs ->
     let A q := in_cells region this q \/ region c q in between region A cs A) /\
  (forall this cs, cells_unionCascaded RNum UnionCascaded this = Ok cs ->
     let A := in_cells region this in between region A cs A).
Proof.
  intros region op cas H HC. split; [|split].
  - intros this c cs E A. unfold cells_unionOp, res_cells, res_geom in E.
    destruct (op (GPolygons this) (GPolygons c)) as [g|] eqn:G; [|discriminate]. injection E as <-. destruct (H _ _ _ G) as [F P].
    apply (cells_same_area region g A A F); intros q; apply P.
  - intros this c cs E A. unfold cells_cell_unionOp, res_cells, res_geom in E.
    destruct (op (GPolygons this) (GPolygon c)) as [g|] eqn:G; [|discriminate]. injection E as <-. destruct (H _ _ _ G) as [F P].
    apply (cells_same_area region g A A F); intros q; apply P.
  - intros this cs E A. unfold cells_unionCascaded, res_cells, res_geom in E.
    destruct (cas (GPolygons this)) as [g|] eqn:G; [|discriminate]. injection E as <-. destruct (HC _ _ G) as [F P].
    apply (cells_same_area region g A A F); intros q; apply P.
Qed.

(** When polygons contain their borders, the area is not only reached but contained. *)
Theorem closed_area : forall (region : list (list pt) -> pt -> Prop) A cs B, (forall c q, limit (region c) q -> region c q) ->
  between region A cs B -> forall q, interior A q -> in_cells region cs q.
Proof. intros region A cs B HC [_ H] q Q. apply limit_cells; auto. Qed.

(** Cutting cells in two loses nothing: every point inside them is reached by the common part or by the rest. *)
Theorem cells_parted : forall region Intersection Difference, gives_common region Intersection -> gives_rest region Difference ->
  forall this c i d, cells_intersection RNum Intersection this c = Ok i -> cells_difference RNum Difference this c = Ok d ->
  forall q, interior (in_cells region this) q -> limit (in_cells region (i ++ d)) q.
Proof.
  intros region inter diff HI HD this c i d EI ED q (e & He & Q) e' He'. unfold cells_intersection, cells_difference, res_cells, res_geom in *.
  destruct (inter (GPolygons this) (GPolygons c)) as [g|] eqn:GI; [|discriminate]. injection EI as <-. destruct (HI _ _ _ GI) as [F P].
  destruct (diff (GPolygons this) (GPolygons c)) as [h|] eqn:GD; [|discriminate]. injection ED as <-. destruct (HD _ _ _ GD) as (F' & P1 & P2).
  set (m := Rmin e e'). assert (Hm : 0 < m) by (unfold m; apply Rmin_glb_lt; assumption).
  assert (L : m <= e /\ m <= e') by (unfold m; split; [apply Rmin_l|apply Rmin_r]).
  destruct (avoid_segments (thin g ++ thin h) q m Hm) as (p & r & Hr & S_ & N_). specialize (S_ p (box_self p r Hr)). specialize (N_ p (box_self p r Hr)).
  exists p. split; [destruct S_ as (A1 & A2 & A3); repeat split; auto; lra|].
  assert (T : in_cells region this p) by (apply Q; destruct S_ as (A1 & A2 & A3); repeat split; auto; lra).
  destruct (classic (in_cells region c p)) as [C|C].
  - destruct (points_cells region g p F) as [(x & I & X)|(a & b & I & O)]; [apply P; split; assumption| |].
    + exists x. split; [apply in_or_app; now left|exact X].
    + exfalso. refine (N_ a b _ O). apply in_or_app. now left.
  - destruct (points_cells region h p F') as [(x & I & X)|(a & b & I & O)]; [now apply P1| |].
    + exists x. split; [apply in_or_app; now right|exact X].
    + exfalso. refine (N_ a b _ O). apply in_or_app. now right.
Qed.

(** Lines in cells, when the common part is points only or lines only. *)
Theorem lines_in_cells : forall region Intersection, gives_common region Intersection ->
  (forall this lines g, Intersection (GLines lines) (GPolygons this) = Some g -> unmixed g ->
     exists pieces, cells_getLinesInside RNum Intersection this lines = Ok pieces /\
       (forall piece q, In piece pieces -> on_line piece q -> (exists l, In l lines /\ on_line l q) /\ in_cells region this q) /\
       (forall line q, In line lines -> stretch (fun _ => in_cells region this) [] line q -> exists piece, In piece pieces /\ on_line piece q)) /\
  (forall this line g, Intersection (GLine line) (GPolygons this) = Some g -> unmixed g ->
     exists pieces, cells_getLinesInside1 RNum Intersection this line = Ok pieces /\
       (forall piece q, In piece pieces -> on_line piece q -> on_line line q /\ in_cells region this q) /\
       (forall q, stretch (fun _ => in_cells region this) [] line q -> exists piece, In piece pieces /\ on_line piece q)).
Proof.
  intros region op H.
  assert (U : forall (r r' : list (list pt) -> pt -> Prop) g q, unmixed g -> points_of r g q -> points_of r' g q).
  { intros r r' g q U P. destruct g; cbn [points_of unmixed] in *; try assumption; try contradiction. now subst. }
  split.
  - intros this lines g G M. exists (ml_of_ogr RNum g). unfold cells_getLinesInside. rewrite G. split; [reflexivity|].
    destruct (H _ _ _ G) as [_ P]. assert (E : cut_exactly (fun _ => in_cells region this) lines [] g).
    { intros q. split; intros Q.
      - exact (proj1 (P q) (U _ region g q M Q)).
      - exact (U region _ g q M (proj2 (P q) Q)). }
    split.
    + intros piece q I O. apply (pieces_unmixed (fun _ => in_cells region this) lines [] g E M). eauto.
    + intros line q I T. now apply (stretch_pieces (fun _ => in_cells region this) lines [] g line q).
  - intros this line g G M. exists (ml_of_ogr RNum g). unfold cells_getLinesInside1. rewrite G. split; [reflexivity|].
    destruct (H _ _ _ G) as [_ P]. assert (E : cut_exactly (fun _ => in_cells region this) [line] [] g).
    { intros q. split; intros Q.
      - destruct (proj1 (P q) (U _ region g q M Q)) as [Q1 Q2]. split; [exists line; split; [now left|exact Q1]|exact Q2].
      - destruct Q as [(l & [<-|[]] & Q1) Q2]. exact (U region _ g q M (proj2 (P q) (conj Q1 Q2))). }
    split.
    + intros piece q I O. destruct (pieces_unmixed (fun _ => in_cells region this) [line] [] g E M q) as [(l & [<-|[]] & Q1) Q2]; eauto.
    + intros q T. apply (stretch_pieces (fun _ => in_cells region this) [line] [] g line q E M (or_introl eq_refl) T).
Qed.

(** Growing and shrinking: cells are made of whatever comes out; the band along a line and the disc
    round a point must be single polygons, or it throws. *)
Theorem grown : forall region Buffer RoundBuffer,
  (forall this w g (A : pt -> Prop), Buffer (GPolygons this) w = Some g -> single_members g -> (forall q, points_of region g q <-> A q) ->
     exists cs, cells_buffer RNum Buffer this w = Ok cs /\ between region A cs A) /\
  (forall l w g, Buffer (GLine l) w = Some g ->
     (forall c, g = GPolygon c -> line_buffer RNum Buffer l w = Ok c) /\ ((forall c, g <> GPolygon c) -> line_buffer RNum Buffer l w = Throw InvalidArgument)) /\
  (forall p w g, RoundBuffer (GPoint p) w = Some g ->
     (forall c, g = GPolygon c -> point_buffer RNum RoundBuffer p w = Ok c) /\ ((forall c, g <> GPolygon c) -> point_buffer RNum RoundBuffer p w = Throw InvalidArgument)).
Proof.
  intros region buf rbuf.
  assert (C : forall g, (forall c, g = GPolygon c -> cell_of_ogr RNum g = Ok c) /\ ((forall c, g <> GPolygon c) -> cell_of_ogr RNum g = Throw InvalidArgument)).
  { intros g. split; [intros c ->; reflexivity|]. intros H. destruct g; try reflexivity. now elim (H rings). }
  split; [|split].
  - intros this w g A G F P. exists (cells_of_ogr RNum g). unfold cells_buffer, res_cells. rewrite G. split; [reflexivity|].
    apply (cells_same_area region g A A F); intros q; apply P.
  - intros l w g G. unfold line_buffer, res_cell. rewrite G. apply C.
  - intros p w g G. unfold point_buffer, res_cell. rewrite G. apply C.
Qed.

(** The hull of cells: a single polygon or an exception. *)
Theorem hull_of_cells : forall ConvexHull (this : list (list (list pt))) g, ConvexHull (GPolygons this) = Some g ->
  (forall c, g = GPolygon c -> cells_convexHull RNum ConvexHull this = Ok c) /\
  ((forall c, g <> GPolygon c) -> cells_convexHull RNum ConvexHull this = Throw InvalidArgument).
Proof.
  intros hull this g G. unfold cells_convexHull, res_cell. rewrite G. split; [intros c ->; reflexivity|].
  intros H. destruct g; try reflexivity. now elim (H rings).
Qed.

(** A failure of the geometry library, as for invalid polygons, is undefined behaviour everywhere. *)
Theorem set_op_failed : forall Intersection Difference Union UnionCascaded ConvexHull Buffer (this c : list (list (list pt))) w,
  (Intersection (GPolygons this) (GPolygons c) = None -> cells_intersection RNum Intersection this c = UB) /\
  (Difference (GPolygons this) (GPolygons c) = None -> cells_difference RNum Difference this c = UB) /\
  (Union (GPolygons this) (GPolygons c) = None -> cells_unionOp RNum Union this c = UB) /\
  (UnionCascaded (GPolygons this) = None -> cells_unionCascaded RNum UnionCascaded this = UB) /\
  (ConvexHull (GPolygons this) = None -> cells_convexHull RNum ConvexHull this = UB) /\
  (Buffer (GPolygons this) w = None -> cells_buffer RNum Buffer this w = UB).
Proof.
  intros. unfold cells_intersection, cells_difference, cells_unionOp, cells_unionCascaded, cells_convexHull, cells_buffer, res_cells, res_cell.
  repeat split; intros ->; reflexivity.
Qed.
Example set_op_failed_ex : cells_buffer RNum (fun _ _ => None) [rect 2 1] 3 = UB.
Proof. apply (set_op_failed (fun _ _ => None) (fun _ _ => None) (fun _ _ => None) (fun _ => None) (fun _ => None) (fun _ _ => None) [rect 2 1] [] 3). reflexivity. Qed.

(** So it is for a ring that crosses itself and a library that, like GEOS, refuses it. *)
Theorem set_op_reported_refuted : exists (Intersection : ogr RNum -> ogr RNum -> option (ogr RNum)) (this c : list (list (list pt))),
  this = [[[P 0 0; P 2 2; P 2 0; P 0 2; P 0 0]]] /\ gives_common in_polygon Intersection /\ cells_intersection RNum Intersection this c = UB.
Proof.
  exists (fun _ _ => None), [[[P 0 0; P 2 2; P 2 0; P 0 2; P 0 0]]], [rect 2 1]. split; [reflexivity|]. split; [discriminate|reflexivity].
Qed.

(** Rectangles at the origin: their common part is exact. *)
Definition corner_region (c : list (list pt)) (q : pt) : Prop :=
  match c with [[_; _; p; _; _]] => 0 <= px q <= px p /\ 0 <= py q <= py p | _ => False end.
Definition corner_common (a b : ogr RNum) : option (ogr RNum) :=
  match a, b with
  | GPolygons [[[_; _; p; _; _]]], GPolygons [[[_; _; q; _; _]]] => Some (GPolygon (rect (Rmin (px p) (px q)) (Rmin (py p) (py q))))
  | _, _ => None
  end.
Example cells_common_ex : gives_common corner_region corner_common /\
  cells_intersection RNum corner_common [rect 2 1] [rect 1 2] = Ok [rect 1 1] /\
  interior (fun q => in_cells corner_region [rect 2 1] q /\ in_cells corner_region [rect 1 2] q) (P (/ 2) (/ 2)).
Proof.
  split; [|split].
  - intros a b g E. destruct a as [| | | | |[|[|[|p1 [|p2 [|p3 [|p4 [|p5 [|]]]]]] [|]] [|]]|]; try discriminate.
    destruct b as [| | | | |[|[|[|q1 [|q2 [|q3 [|q4 [|q5 [|]]]]]] [|]] [|]]|]; try discriminate.
    injection E as <-. split; [discriminate|]. intros q. cbn [points_of]. unfold rect, corner_region. cbn [px py].
    pose proof (Rmin_l (px p3) (px q3)). pose proof (Rmin_r (px p3) (px q3)). pose proof (Rmin_l (py p3) (py q3)). pose proof (Rmin_r (py p3) (py q3)).
    split.
    + intros [X Y]. split; (eexists; split; [left; reflexivity|]); cbn; lra.
    + intros [(c & [<-|[]] & X1 & Y1) (d & [<-|[]] & X2 & Y2)]. split; (split; [lra|apply Rmin_glb; lra]).
  - unfold cells_intersection, res_cells, res_geom, corner_common, rect. cbn [px py cells_of_ogr].
    rewrite (Rmin_right 2 1), (Rmin_left 1 2) by lra. reflexivity.
  - exists (/ 4). split; [lra|]. intros q (X & Y & _). unfold P in X, Y. cbn [px py] in X, Y. apply Rabs_def2 in X, Y.
    split; (eexists; split; [left; reflexivity|]); unfold corner_region, rect; cbn [px py]; lra.
Qed.
Example cells_rest_ex : gives_rest corner_region (fun a b => match a, b with GPolygons cs, GPolygons [] => Some (GPolygons cs) | _, _ => None end) /\
  cells_difference RNum (fun a b => match a, b with GPolygons cs, GPolygons [] => Some (GPolygons cs) | _, _ => None end) [rect 2 1] [] = Ok [rect 2 1].
Proof.
  split; [|reflexivity]. intros a b g E. destruct a; try discriminate. destruct b as [| | | | |[|]|]; try discriminate. injection E as <-.
  split; [discriminate|]. split; [auto|]. intros q Q. split; [exact Q|]. intros (e & He & H). destruct (H q (box_self q e He)) as (c & [] & _).
Qed.
Example cells_all_ex : gives_all corner_region (fun a b => match a, b with GPolygons cs, GPolygons ds => Some (GPolygons (cs ++ ds)) | _, _ => None end) /\
  cells_unionOp RNum (fun a b => match a, b with GPolygons cs, GPolygons ds => Some (GPolygons (cs ++ ds)) | _, _ => None end) [rect 2 1] [rect 1 2] =
    Ok [rect 2 1; rect 1 2].
Proof.
  split; [|reflexivity]. intros a b g E. destruct a, b; try discriminate. injection E as <-. split; [discriminate|]. intros q. cbn [points_of]. split.
  - intros (c & I & R_). apply in_app_or in I. destruct I; [left|right]; eauto.
  - intros [(c & I & R_)|(c & I & R_)]; exists c; (split; [apply in_or_app; auto|exact R_]).
Qed.
(** Rectangles contain their borders. *)
Example closed_area_ex : forall c q, limit (corner_region c) q -> corner_region c q.
Proof.
  intros c q L. assert (M : forall x m : R, (forall e, 0 < e -> exists y, Rabs (y - x) < e /\ 0 <= y <= m) -> 0 <= x <= m).
  { intros x m H. split.
    - destruct (Rle_lt_dec 0 x) as [|N]; [assumption|]. destruct (H (- x)) as (y & A & B); [lra|]. apply Rabs_def2 in A. lra.
    - destruct (Rle_lt_dec x m) as [|N]; [assumption|]. destruct (H (x - m)) as (y & A & B); [lra|]. apply Rabs_def2 in A. lra. }
  destruct c as [|[|p1 [|p2 [|p3 [|p4 [|p5 [|]]]]]] [|]]; try (destruct (L 1 ltac:(lra)) as (? & _ & []); fail).
  cbn [corner_region] in *. split; apply M; intros e He; destruct (L e He) as (y & (X & Y & _) & A); cbn [corner_region] in A; destruct A as [A1 A2]; [exists (px y)|exists (py y)]; split; assumption.
Qed.
(** Rectangles anywhere: their common part, and the rest right of a rectangle that is at least as high. *)
Definition box_region (c : list (list pt)) (q : pt) : Prop :=
  match c with [[a; _; b; _; _]] => px a <= px q <= px b /\ py a <= py q <= py b | _ => False end.
Definition box_of (x0 y0 x1 y1 : R) : list (list pt) := [[P x0 y0; P x1 y0; P x1 y1; P x0 y1; P x0 y0]].
Definition box_common (u v : ogr RNum) : option (ogr RNum) :=
  match u, v with
  | GPolygons [[[a; _; b; _; _]]], GPolygons [[[c; _; d; _; _]]] =>
      Some (GPolygons [box_of (Rmax (px a) (px c)) (Rmax (py a) (py c)) (Rmin (px b) (px d)) (Rmin (py b) (py d))])
  | _, _ => None
  end.
Definition box_rest (u v : ogr RNum) : option (ogr RNum) :=
  match u, v with
  | GPolygons [[[a; _; b; _; _]]], GPolygons [[[c; _; d; _; _]]] =>
      if Rle_dec (py c) (py a) then if Rle_dec (py b) (py d) then if Rle_dec (px c) (px a) then
        Some (GPolygons [box_of (Rmax (px a) (px d)) (py a) (px b) (py b)])
      else None else None else None
  | _, _ => None
  end.
Lemma box_one a b c d e q : in_cells box_region [[[a; b; c; d; e]]] q <-> px a <= px q <= px c /\ py a <= py q <= py c.
Proof. split; [intros (x & [<-|[]] & H); exact H|intro H; eexists; split; [left; reflexivity|exact H]]. Qed.
Lemma box_common_exact : gives_common box_region box_common.
Proof.
  intros u v g E. destruct u as [| | | | |[|[|[|a [|a2 [|b [|a4 [|a5 [|]]]]]] [|]] [|]]|]; try discriminate.
  destruct v as [| | | | |[|[|[|c [|c2 [|d [|c4 [|c5 [|]]]]]] [|]] [|]]|]; try discriminate.
  injection E as <-. split; [discriminate|]. intros q. cbn [points_of].
  change (in_cells box_region [box_of (Rmax (px a) (px c)) (Rmax (py a) (py c)) (Rmin (px b) (px d)) (Rmin (py b) (py d))] q <->
    in_cells box_region [[[a; a2; b; a4; a5]]] q /\ in_cells box_region [[[c; c2; d; c4; c5]]] q).
  unfold box_of. rewrite !box_one. cbn [P px py].
  pose proof (Rmin_l (px b) (px d)). pose proof (Rmin_r (px b) (px d)). pose proof (Rmin_l (py b) (py d)). pose proof (Rmin_r (py b) (py d)).
  pose proof (Rmax_l (px a) (px c)). pose proof (Rmax_r (px a) (px c)). pose proof (Rmax_l (py a) (py c)). pose proof (Rmax_r (py a) (py c)).
  split; [intros; lra|]. intros. repeat split; first [apply Rmax_lub; lra | apply Rmin_glb; lra].
Qed.
Lemma box_rest_exact : gives_rest box_region box_rest.
Proof.
  intros u v g E. destruct u as [| | | | |[|[|[|a [|a2 [|b [|a4 [|a5 [|]]]]]] [|]] [|]]|]; try discriminate.
  destruct v as [| | | | |[|[|[|c [|c2 [|d [|c4 [|c5 [|]]]]]] [|]] [|]]|]; try discriminate.
  cbn [box_rest] in E. destruct (Rle_dec (py c) (py a)) as [H1|]; [|discriminate]. destruct (Rle_dec (py b) (py d)) as [H2|]; [|discriminate].
  destruct (Rle_dec (px c) (px a)) as [H3|]; [|discriminate]. injection E as <-. split; [discriminate|]. cbn [points_of].
  pose proof (Rmax_l (px a) (px d)). pose proof (Rmax_r (px a) (px d)). split.
  - intros q Ha Hb. apply (proj1 (box_one _ _ _ _ _ _)) in Ha. apply (proj2 (box_one _ _ _ _ _ _)). cbn [P px py].
    destruct (Rle_lt_dec (px q) (px d)) as [L|L].
    + exfalso. apply Hb. apply (proj2 (box_one _ _ _ _ _ _)). lra.
    + split; [split; [apply Rmax_lub; lra|lra]|lra].
  - intros q Hq. apply (proj1 (box_one _ _ _ _ _ _)) in Hq. cbn [P px py] in Hq. split; [apply (proj2 (box_one _ _ _ _ _ _)); lra|].
    intros (e & He & H5). specialize (H5 (mkPoint (N := RNum) (px q + e / 2) (py q) (pz q))). cbv beta in H5.
    destruct (proj1 (box_one c c2 d c4 c5 _) (H5 ltac:(split; [|split]; cbn [px py pz]; [|rewrite Rminus_diag_eq by reflexivity; rewrite Rabs_R0; lra|reflexivity];
      replace (px q + e / 2 - px q) with (e / 2) by ring; rewrite Rabs_right; lra))) as [X _]. cbn [px] in X. lra.
Qed.
(** A point of the line where two rectangles were cut apart. *)
Example cells_parted_ex : cells_intersection RNum box_common [rect 2 1] [rect 1 2] = Ok [rect 1 1] /\
  cells_difference RNum box_rest [rect 2 1] [rect 1 2] = Ok [box_of 1 0 2 1] /\ limit (in_cells box_region [rect 1 1; box_of 1 0 2 1]) (P 1 (/ 2)).
Proof.
  assert (I1 : cells_intersection RNum box_common [rect 2 1] [rect 1 2] = Ok [rect 1 1]).
  { unfold cells_intersection, res_cells, res_geom, box_common, rect. cbn [px py cells_of_ogr].
    rewrite (Rmin_right 2 1), (Rmin_left 1 2), !(Rmax_left 0 0) by lra. reflexivity. }
  assert (D1 : cells_difference RNum box_rest [rect 2 1] [rect 1 2] = Ok [box_of 1 0 2 1]).
  { unfold cells_difference, res_cells, res_geom, box_rest, rect. cbn [px py].
    destruct (Rle_dec 0 0) as [_|]; [|lra]. destruct (Rle_dec 1 2) as [_|]; [|lra].
    rewrite (Rmax_right 0 1) by lra. reflexivity. }
  split; [exact I1|]. split; [exact D1|].
  refine (cells_parted box_region box_common box_rest box_common_exact box_rest_exact _ _ _ _ I1 D1 _ _).
  exists (/ 4). split; [lra|]. intros q (X & Y & _). unfold P in X, Y. cbn [px py] in X, Y. apply Rabs_def2 in X, Y.
  eexists. split; [left; reflexivity|]. unfold box_region, rect. cbn [px py]. lra.
Qed.
(** Level lines through a rectangle from side to side. *)
Definition box_lines (u v : ogr RNum) : option (ogr RNum) :=
  match u, v with
  | GLine [p; q], GPolygons [[[a; _; b; _; _]]] =>
      if Req_EM_T (py p) (py q) then if Req_EM_T (pz p) 0 then if Req_EM_T (pz q) 0 then
      if Rle_dec (px p) (px a) then if Rlt_dec (px a) (px b) then if Rle_dec (px b) (px q) then
      if Rle_dec (py a) (py p) then if Rle_dec (py p) (py b) then Some (GLine [P (px a) (py p); P (px b) (py p)])
      else None else None else None else None else None else None else None else None
  | _, _ => None
  end.
Lemma box_lines_exact : gives_common box_region box_lines.
Proof.
  intros u v g E. destruct u as [|[|p [|q [|]]]| | | | |]; try discriminate.
  destruct v as [| | | | |[|[|[|a [|a2 [|b [|a4 [|a5 [|]]]]]] [|]] [|]]|]; try discriminate. cbn [box_lines] in E.
  destruct (Req_EM_T (py p) (py q)) as [H1|]; [|discriminate]. destruct (Req_EM_T (pz p) 0) as [H2|]; [|discriminate].
  destruct (Req_EM_T (pz q) 0) as [H3|]; [|discriminate]. destruct (Rle_dec (px p) (px a)) as [H4|]; [|discriminate].
  destruct (Rlt_dec (px a) (px b)) as [H5|]; [|discriminate]. destruct (Rle_dec (px b) (px q)) as [H6|]; [|discriminate].
  destruct (Rle_dec (py a) (py p)) as [H7|]; [|discriminate]. destruct (Rle_dec (py p) (py b)) as [H8|]; [|discriminate].
  injection E as <-. split; [discriminate|]. intro s. cbn [points_of].
  assert (Ep : p = P (px p) (py p)) by (destruct p; cbn in *; unfold P; now rewrite H2).
  assert (Eq : q = P (px q) (py p)) by (destruct q; cbn in *; unfold P; now rewrite H3, H1).
  assert (L : on_line [p; q] s <-> exists x, s = P x (py p) /\ px p <= x <= px q) by (rewrite Ep, Eq at 1; apply flat_segment; lra).
  rewrite L, flat_segment by assumption. split.
  - intros (x & -> & X). split; [exists x; split; [reflexivity|lra]|]. apply (proj2 (box_one _ _ _ _ _ _)). cbn [P px py]. lra.
  - intros [(x & -> & X) B]. apply (proj1 (box_one _ _ _ _ _ _)) in B. cbn [P px py] in B. exists x. split; [reflexivity|lra].
Qed.
Example lines_in_cells_ex : exists pieces, cells_getLinesInside1 RNum box_lines [rect 2 1] [P (-1) (/ 2); P 3 (/ 2)] = Ok pieces /\
  forall piece q, In piece pieces -> on_line piece q -> in_cells box_region [rect 2 1] q.
Proof.
  destruct (lines_in_cells box_region box_lines box_lines_exact) as [_ H].
  destruct (H [rect 2 1] [P (-1) (/ 2); P 3 (/ 2)] (GLine [P 0 (/ 2); P 2 (/ 2)])) as (pieces & E & A & _).
  - unfold box_lines, rect, P. cbn [px py pz].
    destruct (Req_EM_T (/ 2) (/ 2)) as [_|K]; [|now elim K]. destruct (Req_EM_T 0 0) as [_|K]; [|now elim K].
    destruct (Rle_dec (-1) 0) as [_|K]; [|lra]. destruct (Rlt_dec 0 2) as [_|K]; [|lra]. destruct (Rle_dec 2 3) as [_|K]; [|lra].
    destruct (Rle_dec 0 (/ 2)) as [_|K]; [|lra]. destruct (Rle_dec (/ 2) 1) as [_|K]; [|lra]. reflexivity.
  - exact I.
  - exists pieces. split; [exact E|]. intros piece q Hp Hq. exact (proj2 (A piece q Hp Hq)).
Qed.
(** A line with a gap of the width zero: its band is no polygon. *)
Example grown_ex : exists Buffer, Buffer (GLine [P 0 0]) 1 = Some (GPolygons (N := RNum) []) /\ line_buffer RNum Buffer [P 0 0] 1 = Throw InvalidArgument.
Proof. exists (fun _ _ => Some (GPolygons [])). split; reflexivity. Qed.
Example hull_of_cells_ex : exists ConvexHull, ConvexHull (GPolygons [peaks; rect 2 1]) = Some (GPolygon (N := RNum) (rect 8 4)) /\
  cells_convexHull RNum ConvexHull [peaks; rect 2 1] = Ok (rect 8 4).
Proof. exists (fun _ => Some (GPolygon (rect 8 4))). split; reflexivity. Qed.

Print Assumptions cells_common.
Print Assumptions cells_rest.
Print Assumptions cells_all.
Print Assumptions closed_area.
Print Assumptions cells_parted.
Print Assumptions lines_in_cells.
Print Assumptions grown.
Print Assumptions hull_of_cells.
Print Assumptions set_op_failed.
Print Assumptions set_op_reported_refuted.
