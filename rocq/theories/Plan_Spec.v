(** Specification vocabulary for planning in one call, independent of the model of
    the planner (only the options are taken from it). *)
From Coq Require Import List Arith ZArith Bool Reals Permutation.
From Verif Require Import Outcome Num Point_Model Swath_Model Route_Model Graph2D_Model Angle_Spec Objective_Spec SwathGen_Spec
  RoutePlanner_Spec Plan_Model.
Import ListNotations.
Open Scope R_scope.

(** The lines laid over a cell for the direction [a] and the width [w]: as few as can
    cover its extent across [a], one width apart, each longer than the cell. *)
Definition laid (a w : R) (cell : list (list pt)) (lines : list (list pt)) : Prop :=
  exists x0 x1 y0 y1,
    extent (along a) (concat cell) x0 x1 /\ extent (across_of a) (concat cell) y0 y1 /\
    (y0 < y1 -> (INR (length lines) - 1) * w < y1 - y0 <= INR (length lines) * w) /\
    (y0 = y1 -> lines = []) /\
    forall k line, nth_error lines k = Some line -> exists p q, line = [p; q] /\
      across_of a p = y0 + (INR k + / 2) * w /\ across_of a q = y0 + (INR k + / 2) * w /\
      along a p <= x0 /\ x1 <= along a q.

(** The swaths made of the pieces: numbered from 0, of the width [w]. *)
Definition swaths_of (wkt : pt -> pt) (w : R) (pieces : list (list pt)) (s : list (swath pt R)) : Prop :=
  length s = length pieces /\
  forall i piece, nth_error pieces i = Some piece ->
    nth_error s i = Some (mkSwath pt R (Z.of_nat i) (map wkt piece) w true MAINLAND).

(** The mainland and the rings to travel on: the cells themselves without headland; with
    a headland of [n] widths the cells without a border of [n] widths, and the middle
    of the (n / 2 + 1)-th headland track from outside. *)
Definition headland_parts (buffer : list (list (list pt)) -> R -> list (list (list pt))) (width : R)
  (cells : list (list (list pt))) (opt : options) (mainland rings : list (list (list pt))) : Prop :=
  match o_hg_alg opt with
  | HG_NONE => mainland = cells /\ rings = cells
  | HG_CONST => exists k : nat, (1 <= o_hg_swaths opt)%Z /\
      (2 * Z.of_nat k <= o_hg_swaths opt <= 2 * Z.of_nat k + 1)%Z /\
      mainland = buffer cells (- (IZR (o_hg_swaths opt) * width)) /\
      rings = buffer cells (- ((INR k + / 2) * width))
  end.

Definition degrees (k : nat) : R := INR k * (PI / 180).

(** The direction of the swaths of a cell: the given one, or the first of the 360 whole
    degrees with the smallest cost. *)
Definition chosen (opt : options) (cost : R -> R) (a : R) : Prop :=
  match o_sg_alg opt with
  | GIVEN_ANGLE => a = o_sg_angle opt
  | BRUTE_FORCE => exists k, (k < 360)%nat /\ a = degrees k /\
      (forall j, (j < 360)%nat -> cost a <= cost (degrees j)) /\
      (forall j, (j < k)%nat -> cost a < cost (degrees j))
  end.

Section Costs.
  (** Length of a swath, area of cells, part of the cells a swath covers, and so on:
      whatever the geometry library answers. *)
  Variable s_length : swath pt R -> R.
  Variable cs_area : list (list (list pt)) -> R.
  Variable covered : list (list (list pt)) -> swath pt R -> list (list (list pt)).
  Variable intersects : list (list (list pt)) -> list (list (list pt)) -> bool.
  Variable inter : list (list (list pt)) -> list (list (list pt)) -> list (list (list pt)).
  Variable covered_area : list (list (list pt)) -> list (swath pt R) -> swath pt R -> R.

  (** [x] is what brute force minimises: the cost of the direction [a] for the cell [c],
      in which it gives the swaths [s]. *)
  Definition direction_cost (o : SGObjFunc) (w : R) (c : list (list pt)) (a : R) (s : list (swath pt R)) (x : R) : Prop :=
    match o with
    | N_SWATH_MOD => forall d, x = rsum (map (fun r => rsum (map (fun e => across a (fst e) (snd e)) (ring_edges r)) +
        across a (nth (Z.to_nat ((2 ^ 64 - 1) mod Z.of_nat (length r))) r d) (nth 0 r d)) c) / (2 * w)
    | N_SWATH => x = INR (length s)
    | SWATH_LENGTH => x = rsum (map s_length s)
    | FIELD_COV => exists s0, hd_error s = Some s0 /\ x = - (covered_area [c] s s0 / cs_area [c])
    | OVERLAPS => forall s0, x = rsum (map (fun p =>
          let u := covered [c] (nth (fst p) (rev s) s0) in let v := covered [c] (nth (snd p) (rev s) s0) in
          if intersects u v then cs_area (inter u v) else 0)
        (filter (fun p => fst p + snd p <? length s)%nat (pairs (seq 0 (length s))))) / cs_area [c]
    end.

  (** How lines are clipped to a cell, and the text round trip. *)
  Variable inside : list (list pt) -> list (list pt) -> list (list pt).
  Variable wkt : pt -> pt.

  (** The lines and swaths of the cell [c] in the direction [a]: the lines leave no gap in
      its bounding box, the swaths are their pieces. *)
  Definition laid_ok (w : R) (c : list (list pt)) (a : R) (lines : list (list pt)) (s : list (swath pt R)) : Prop :=
    laid a w c lines /\
    (forall x0 x1 y0 y1, extent (along a) (concat c) x0 x1 -> extent (across_of a) (concat c) y0 y1 -> y0 < y1 ->
     forall q, x0 <= along a q <= x1 -> y0 <= across_of a q <= y1 ->
       exists line, In line lines /\ within (w / 2) line q) /\
    swaths_of wkt w (inside lines c) s.

  (** The swaths [s] of the cell [c] are those of the chosen direction. *)
  Definition cell_ok (opt : options) (w : R) (c : list (list pt)) (s : list (swath pt R)) : Prop :=
    exists a lines (cost : R -> R), chosen opt cost a /\ laid_ok w c a lines s /\
      (o_sg_alg opt = BRUTE_FORCE -> forall k, (k < 360)%nat -> exists lines' s', laid_ok w c (degrees k) lines' s' /\
         direction_cost (o_sg_obj opt) w c (degrees k) s' (cost (degrees k))).
End Costs.

(** A cell whose swaths can be generated: it has a point; for the default objective of brute
    force its rings are not empty; and when the covered area is to be
    maximised, every direction gives at least one swath. *)
Definition plannable (inside : list (list pt) -> list (list pt) -> list (list pt)) (opt : options) (w : R) (c : list (list pt)) : Prop :=
  concat c <> [] /\
  (o_sg_alg opt = BRUTE_FORCE -> o_sg_obj opt = N_SWATH_MOD -> forall r, In r c -> r <> [] /\ (Z.of_nat (length r) <= 2 ^ 64)%Z) /\
  (o_sg_alg opt = BRUTE_FORCE -> o_sg_obj opt = FIELD_COV -> forall k lines, (k < 360)%nat -> laid (degrees k) w c lines -> inside lines c <> []).

(** What the route planner needs of the rings and the swaths: pairwise different ends and
    middles, kept by the text round trip, joined along the rings, near enough to each
    other for the planner's infinity. *)
Definition routable (wkt : pt -> pt) (keq : pt -> pt -> bool) (near : pt -> pt -> pt -> bool) (closest : pt -> outcome pt)
  (rings : list (list pt)) (ss : list (swath pt R)) : Prop :=
  let o : pt := mkPoint (N := RNum) 0 0 0 in
  let mid (a b : pt) : pt := mkPoint (N := RNum) ((px a + px b) / 2) ((py a + py b) / 2) ((pz a + pz b) / 2) in
  let far : pt := mkPoint (N := RNum) (-100000000) (-100000000) 0 in
  ss <> [] /\
  (forall s, In s ss -> sw_path s <> [] /\ keq (wkt (first_pt o s)) (first_pt o s) = true /\ keq (wkt (last_pt o s)) (last_pt o s) = true) /\
  pairwise_different keq (far :: flat_map (swath_nodes o mid) ss) /\
  (forall p, In p (end_points o ss) -> exists c, closest p = Ok c) /\
  (forall ring, In ring rings -> ring <> []) /\
  (forall p q, In p (end_points o ss) -> In q (end_points o ss) -> joined keq o closest near None rings ss p q) /\
  exists D : R, 0 <= D /\
    (forall x y x' y', base o closest None rings ss x x' \/ base o closest None rings ss x' x ->
       base o closest None rings ss y y' \/ base o closest None rings ss y' y -> sqrt (dist2 x y) <= D) /\
    1000 * D * INR (2 * (2 * length ss + length (concat rings) + 1)) < 1073741824.

(** The route drives every swath of [ss] exactly once, forwards or backwards, and nothing else. *)
Definition drives_all (wkt : pt -> pt) (ss : list (swath pt R)) (r : route pt R) : Prop :=
  exists ks, Permutation (map fst ks) (seq 0 (length ss)) /\ Forall2 (driven wkt ss) (concat (r_swaths r)) ks.

(** A cell with three points that are not on one line. *)
Definition fat (c : list (list pt)) : Prop := exists p q r, In p (concat c) /\ In q (concat c) /\ In r (concat c) /\
  (px q - px p) * (py r - py p) - (py q - py p) * (px r - px p) <> 0.

(** The clipping of lines to a cell is faithful to the region [region], which may depend on
    the lines: what is on a line and in the region is on one of the pieces. *)
Definition clips (inside : list (list pt) -> list (list pt) -> list (list pt)) 
    (region : list (list pt) -> list (list pt) -> list pt -> pt -> Prop) : Prop :=
  forall lines cell line q, In line lines -> on_line line q -> region cell lines line q ->
    exists piece, In piece (inside lines cell) /\ on_line piece q.
