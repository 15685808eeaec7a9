(** Model of Visualizer (src/fields2cover/utils/visualizer.cpp): the calls to matplot are
    recorded as the list of things drawn. *)
From Coq Require Import List Arith ZArith Bool.
From Verif Require Import Outcome Num Point_Model Swath_Model Route_Model Path_Model Container_Model Field_Model.
Import ListNotations.

(** What one call to matplot draws: plt::plot, plt::scatter, plt::arrow and plt::polygon
    (src/fields2cover/utils/visualizer.cpp:18, 24, 46, 245). *)
Inductive shape (N : Num) : Type :=
| Curve (x y : list N)
| Marks (x y : list N)
| Arrow (x1 y1 x2 y2 : N)
| Filled (x y : list N).
Arguments Curve {N}. Arguments Marks {N}. Arguments Arrow {N}. Arguments Filled {N}.

(** A thing drawn with the attributes set afterwards: line_width, and color or
    marker_color (src/fields2cover/utils/visualizer.cpp:19-20, 30).  The conversion of
    colours by plt::to_array and to float is left out. *)
Record drawn (N : Num) : Type := mkDrawn { dr_shape : shape N; dr_width : option N; dr_color : option (list N) }.
Arguments mkDrawn {N}. Arguments dr_shape {N}. Arguments dr_width {N}. Arguments dr_color {N}.

Section Vis.
  Variable N : Num.
  (** std::cos and std::sin. *)
  Variables cosf sinf : N -> N.
  Notation pt := (point N).
  Notation color := (list N).
  Notation swath := (swath pt N).

  (** Visualizer::getLineWidth (include/fields2cover/utils/visualizer.h:22). *)
  Definition lineWidth : N := nofZ N 1.

  (** Visualizer::getComponents (src/fields2cover/utils/visualizer.cpp:288-296). *)
  Definition getComponents (points : list pt) : list (list N) := [map px points; map py points].

  (** Visualizer::linspace (src/fields2cover/utils/visualizer.cpp:298-305), for N below 2^53. *)
  Definition linspace (min max : N) (n : nat) : list N :=
    let h := ndiv N (nsub N max min) (nsub N (nofZ N (Z.of_nat n)) (nofZ N 1)) in
    map (fun i => nadd N min (nmul N (nofZ N (Z.of_nat i)) h)) (seq 0 n).

  (** Visualizer::color_linspace (src/fields2cover/utils/visualizer.cpp:307-319). *)
  Definition color_linspace (min max : list Z) (n : nat) : outcome (list color) :=
    do r0 <- vec_index min 0; do r1 <- vec_index max 0;
    do g0 <- vec_index min 1; do g1 <- vec_index max 1;
    do b0 <- vec_index min 2; do b1 <- vec_index max 2;
    let v_r := linspace (nofZ N r0) (nofZ N r1) n in
    let v_g := linspace (nofZ N g0) (nofZ N g1) n in
    let v_b := linspace (nofZ N b0) (nofZ N b1) n in
    mapM (fun i =>
      do r <- vec_index v_r i; do g <- vec_index v_g i; do b <- vec_index v_b i;
      Ok [ndiv N r (nofZ N 255); ndiv N g (nofZ N 255); ndiv N b (nofZ N 255)]) (seq 0 n).

  (** Visualizer::plot of two vectors (src/fields2cover/utils/visualizer.cpp:15-21). *)
  Definition plot_vectors (t d : list N) (c : color) : list (drawn N) :=
    [mkDrawn (Curve t d) (Some lineWidth) (Some c)].

  (** Visualizer::plot of two numbers (src/fields2cover/utils/visualizer.cpp:23-32): the
      loop writes every component of the colour to a std::array of three. *)
  Definition plot_xy (x y : N) (c : color) : outcome (list (drawn N)) :=
    if length c <? 3 then Ok [mkDrawn (Marks [x] [y]) None None]
    else if length c <=? 3 then Ok [mkDrawn (Marks [x] [y]) None (Some c)]
    else UB.

  (** Visualizer::plot of a point (src/fields2cover/utils/visualizer.cpp:34-36). *)
  Definition plot_point (p : pt) (c : color) : outcome (list (drawn N)) := plot_xy (px p) (py p) c.

  (** Visualizer::plot of a line (src/fields2cover/utils/visualizer.cpp:100-108); its points by
      data2vector (include/fields2cover/utils/visualizer.h:120-131). *)
  Definition plot_line (l : list pt) (c : color) : outcome (list (drawn N)) :=
    let comps := getComponents l in
    do x <- vec_index comps 0; do y <- vec_index comps 1;
    Ok [mkDrawn (Curve x y) (Some lineWidth) (if 3 <=? length c then Some c else None)].

  (** A coordinate of a point of a line (src/fields2cover/types/LineString.cpp:44-46). *)
  Definition coord (f : pt -> N) (l : list pt) (i : nat) : outcome N := do p <- vec_index l i; Ok (f p).

  (** Visualizer::plot of a swath (src/fields2cover/utils/visualizer.cpp:38-51). *)
  Definition plot_swath (s : swath) (c : color) : outcome (list (drawn N)) :=
    let line := sw_path s in
    let n := length line in
    if n <? 2 then Ok []
    else
      do d <- plot_line line c;
      do x1 <- coord px line (n - 2); do y1 <- coord py line (n - 2);
      do x2 <- coord px line (n - 1); do y2 <- coord py line (n - 1);
      Ok (d ++ [mkDrawn (Arrow x1 y1 x2 y2) (Some lineWidth) (Some c)]).

  (** The calls of a loop one after the other (e.g. src/fields2cover/utils/visualizer.cpp:62-64). *)
  Definition draw_all {A} (f : A -> outcome (list (drawn N))) (l : list A) : outcome (list (drawn N)) :=
    do ds <- mapM f l; Ok (concat ds).

  (** The colours of src/fields2cover/utils/visualizer.cpp:58-59 (and 72-73, 184-185). *)
  Definition green : list Z := [0; 255; 0]%Z.
  (** The same (src/fields2cover/utils/visualizer.cpp:59, 73, 185). *)
  Definition dark : list Z := [21; 15; 11]%Z.

  (** The colours given or, when there are none, [n] of them
      (src/fields2cover/utils/visualizer.cpp:55-61, 69-75, 181-187). *)
  Definition colors_or (given : list color) (n : nat) : outcome (list color) :=
    match given with [] => color_linspace green dark n | _ => Ok given end.

  (** Visualizer::plot of swaths (src/fields2cover/utils/visualizer.cpp:53-65). *)
  Definition plot_swaths (s : list swath) (given : list color) : outcome (list (drawn N)) :=
    do colors <- colors_or given (length s);
    draw_all (fun i => do x <- vec_index s i; do c <- vec_index colors i; plot_swath x c) (seq 0 (length s)).

  (** Visualizer::plot of swaths by cells (src/fields2cover/utils/visualizer.cpp:67-79). *)
  Definition plot_sbc (s : list (list swath)) (given : list color) : outcome (list (drawn N)) :=
    let n := Z.to_nat (sbc_sizeTotal s) in
    do colors <- colors_or given n;
    draw_all (fun i => do x <- sbc_getSwath s i; do c <- vec_index colors i; plot_swath x c) (seq 0 n).

  (** The palette of src/fields2cover/utils/visualizer.cpp:83-90. *)
  Definition palette : list (list Z) :=
    [[0; 255; 0]; [15; 21; 11]; [255; 0; 0]; [21; 15; 11]; [0; 0; 255]; [11; 15; 21];
     [255; 0; 255]; [21; 15; 21]; [0; 255; 255]; [0; 21; 21]; [255; 255; 0]; [21; 21; 0]]%Z.

  (** Visualizer::plot of several swaths by cells (src/fields2cover/utils/visualizer.cpp:81-98). *)
  Definition plot_vsbc (vs : list (list (list swath))) (given : list color) : outcome (list (drawn N)) :=
    let cs := length palette in
    draw_all (fun i =>
      do a <- vec_index palette ((2 * i) mod cs);
      do b <- vec_index palette ((2 * i + 1) mod cs);
      do v <- vec_index vs i;
      do colors <- color_linspace a b (Z.to_nat (sbc_sizeTotal v));
      plot_sbc v colors) (seq 0 (length vs)).

  (** Visualizer::plot of several points (src/fields2cover/utils/visualizer.cpp:110-115). *)
  Definition plot_points (ps : list pt) (c : color) : outcome (list (drawn N)) :=
    draw_all (fun i => do p <- line_getGeometry N ps i; plot_point p c) (seq 0 (length ps)).

  (** Visualizer::plot of several lines (src/fields2cover/utils/visualizer.cpp:117-122). *)
  Definition plot_lines (ls : list (list pt)) (c : color) : outcome (list (drawn N)) :=
    draw_all (fun i => do l <- coll_getGeometry (line_isEmpty N) ls i; plot_line l c)
      (seq 0 (coll_size (line_isEmpty N) ls)).

  (** Visualizer::plot of a ring (src/fields2cover/utils/visualizer.cpp:124-127). *)
  Definition plot_ring (r : list pt) (c : color) : outcome (list (drawn N)) := plot_line r c.

  (** Visualizer::plot of a cell (src/fields2cover/utils/visualizer.cpp:129-134). *)
  Definition plot_cell (cell : list (list pt)) (c : color) : outcome (list (drawn N)) :=
    draw_all (fun r => plot_ring r c) (firstn (coll_size (line_isEmpty N) cell) cell).

  (** Visualizer::plot of cells (src/fields2cover/utils/visualizer.cpp:136-141). *)
  Definition plot_cells (cells : list (list (list pt))) (c : color) : outcome (list (drawn N)) :=
    draw_all (fun x => plot_cell x c) (firstn (coll_size (cell_isEmpty N) cells) cells).

  (** Visualizer::plot of several routes (src/fields2cover/utils/visualizer.cpp:144-152). *)
  Definition plot_routes (rs : list (route pt N)) (given : list color) : outcome (list (drawn N)) :=
    do lines <- draw_all (fun r => do l <- r_asLineString r; plot_line l []) rs;
    do swaths <- plot_vsbc (map (@r_swaths pt N) rs) given;
    Ok (lines ++ swaths).

  (** Visualizer::plot of a route (src/fields2cover/utils/visualizer.cpp:153-157). *)
  Definition plot_route (r : route pt N) (given : list color) : outcome (list (drawn N)) :=
    do l <- r_asLineString r;
    do d <- plot_line l [];
    do swaths <- plot_sbc (r_swaths r) given;
    Ok (d ++ swaths).

  (** The parts of a path drawn so far, the last one first, and the previous type and
      direction (src/fields2cover/utils/visualizer.cpp:165-167). *)
  Record sections := mkSections { sec_done : list (list N * list N); sec_last : list N * list N; sec_type : Z; sec_dir : Z }.

  (** The body of the loop of src/fields2cover/utils/visualizer.cpp:168-179. *)
  Definition section_step (st : sections) (s : pstate N) : sections :=
    let e := ps_atEnd N cosf sinf s in
    let last := (fst (sec_last st) ++ [px (ps_point s); px e], snd (sec_last st) ++ [py (ps_point s); py e]) in
    if negb (ps_type s =? sec_type st)%Z || negb (ps_dir s =? sec_dir st)%Z
    then mkSections (sec_done st ++ [last]) ([], []) (ps_type s) (ps_dir s)
    else mkSections (sec_done st) last (sec_type st) (sec_dir st).

  (** X and Y after the loop (src/fields2cover/utils/visualizer.cpp:165-179). *)
  Definition path_sections (s0 : pstate N) (path : list (pstate N)) : list (list N * list N) :=
    let st := fold_left section_step path (mkSections [] ([], []) (ps_type s0) (ps_dir s0)) in
    sec_done st ++ [sec_last st].

  (** Visualizer::plot of a path (src/fields2cover/utils/visualizer.cpp:159-194). *)
  Definition plot_path (path : list (pstate N)) (given : list color) : outcome (list (drawn N)) :=
    if length path <=? 1 then Ok []
    else
      do s0 <- vec_index path 0;
      let xy := path_sections s0 path in
      do colors <- colors_or given (length xy);
      draw_all (fun i =>
        do s <- vec_index xy i; do c <- vec_index colors i;
        Ok [mkDrawn (Curve (fst s) (snd s)) (Some lineWidth) (Some c)]) (seq 0 (length xy)).

  (** Visualizer::plot of a field (src/fields2cover/utils/visualizer.cpp:196-199). *)
  Definition plot_field (f : field N) (c : color) : outcome (list (drawn N)) := plot_cells (f_cells f) c.

  (** Visualizer::plotFilled of a field (src/fields2cover/utils/visualizer.cpp:200-203). *)
  Definition plotFilled_field (f : field N) (c : color) : outcome (list (drawn N)) := plot_cells (f_cells f) c.

  (** Visualizer::plotFilled of a ring (src/fields2cover/utils/visualizer.cpp:238-247): the
      width is set on a copy (246) of the object that color() returns, not on the polygon. *)
  Definition plotFilled_ring (r : list pt) (c : color) : list (drawn N) :=
    [mkDrawn (Filled (map px r) (map py r)) None (Some c)].

  (** Cell::getExteriorRing (src/fields2cover/types/Cell.cpp:132-134): null without rings. *)
  Definition exterior (cell : list (list pt)) : outcome (list pt) := vec_index cell 0.

  (** Visualizer::plotFilled of a cell in one colour (src/fields2cover/utils/visualizer.cpp:221-224). *)
  Definition plotFilled_cell1 (cell : list (list pt)) (poly : color) : outcome (list (drawn N)) :=
    do r <- exterior cell; Ok (plotFilled_ring r poly).

  (** Visualizer::plotFilled of a cell (src/fields2cover/utils/visualizer.cpp:226-236). *)
  Definition plotFilled_cell (cell : list (list pt)) (poly holes : color) : outcome (list (drawn N)) :=
    let size := coll_size (line_isEmpty N) cell in
    if size <? 1 then Ok []
    else
      do r <- exterior cell;
      do hs <- draw_all (fun i => do h <- vec_index cell (i + 1); Ok (plotFilled_ring h holes)) (seq 0 (size - 1));
      Ok (plotFilled_ring r poly ++ hs).

  (** Visualizer::plotFilled of cells with a colour for the holes
      (src/fields2cover/utils/visualizer.cpp:213-219). *)
  Definition plotFilled_cells (cells : list (list (list pt))) (poly holes : color) : outcome (list (drawn N)) :=
    draw_all (fun x => plotFilled_cell x poly holes) (firstn (coll_size (cell_isEmpty N) cells) cells).

  (** Visualizer::plotFilled of cells in one colour (src/fields2cover/utils/visualizer.cpp:206-211). *)
  Definition plotFilled_cells1 (cells : list (list (list pt))) (poly : color) : outcome (list (drawn N)) :=
    draw_all (fun x => plotFilled_cell x poly [nofZ N 1; nofZ N 1; nofZ N 1]) (firstn (coll_size (cell_isEmpty N) cells) cells).
End Vis.
