(** Model of the cubic spline (src/fields2cover/utils/spline.cpp). *)
From Coq Require Import List Arith ZArith Bool.
From Verif Require Import Outcome Num.
Import ListNotations.

Section Spline.
  Variable N : Num.
  Let zero := nofZ N 0.
  Let two := nofZ N 2.
  Let three := nofZ N 3.
  Infix "+" := (nadd N).
  Infix "-" := (nsub N).
  Infix "*" := (nmul N).
  Infix "/" := (ndiv N).

  (** A knot (x_vec_[i], y_vec_[i]) (include/fields2cover/utils/spline.h:60). *)
  Definition knot : Type := (N * N)%type.

  (** One row of the local vectors h, l, u, z
      (src/fields2cover/utils/spline.cpp:116). *)
  Record row : Type := mkRow { r_h : N; r_l : N; r_u : N; r_z : N }.

  (** One row of the coefficients b_vec_, c_vec_, d_vec_
      (include/fields2cover/utils/spline.h:61). *)
  Record coef : Type := mkCoef { k_b : N; k_c : N; k_d : N }.

  (** Row 0 (src/fields2cover/utils/spline.cpp:118-121). *)
  Definition spl_row0 (k0 k1 : knot) : row := mkRow (fst k1 - fst k0) (nofZ N 1) zero zero.

  (** Row i from row i - 1 (src/fields2cover/utils/spline.cpp:127-136). *)
  Definition spl_row (prev : row) (km k kp : knot) : outcome row :=
    if nltb N (fst k) (fst kp) then
      let h := fst kp - fst k in
      let alpha := three / h * (snd kp - snd k) - three / r_h prev * (snd k - snd km) in
      let l := two * (fst kp - fst km) - r_h prev * r_u prev in
      Ok (mkRow h l (h / l) ((alpha - r_h prev * r_z prev) / l))
    else Throw OutOfRange.

  (** The loop of src/fields2cover/utils/spline.cpp:126-137 from the knot after
      [km] and [k] on. *)
  Fixpoint spl_rows (prev : row) (km k : knot) (ks : list knot) : outcome (list row) :=
    match ks with
    | [] => Ok []
    | kp :: ks' =>
      do r <- spl_row prev km k kp;
      do rs <- spl_rows r k kp ks';
      Ok (r :: rs)
    end.

  (** The row of coefficients of src/fields2cover/utils/spline.cpp:140-144, [c1]
      being c_vec_[i + 1]. *)
  Definition spl_coef (r : row) (k kp : knot) (c1 : N) : coef :=
    let c := r_z r - r_u r * c1 in
    mkCoef ((snd kp - snd k) / r_h r - r_h r * (c1 + two * c) / three) c ((c1 - c) / (three * r_h r)).

  (** The loop of src/fields2cover/utils/spline.cpp:139-145, which runs backwards;
      the last element has c = 0 (line 124) and the zeros of resize. *)
  Fixpoint spl_coefs (rs : list row) (k : knot) (ks : list knot) : list coef :=
    match rs, ks with
    | r :: rs', kp :: ks' =>
      let rest := spl_coefs rs' kp ks' in
      spl_coef r k kp (match rest with [] => zero | c :: _ => k_c c end) :: rest
    | _, _ => [mkCoef zero zero zero]
    end.

  (** d_vec_[0] = 0 (src/fields2cover/utils/spline.cpp:190); the last d is 0 already. *)
  Definition spl_clear (cs : list coef) : list coef :=
    match cs with
    | [] => []
    | c :: cs => mkCoef (k_b c) (k_c c) zero :: cs
    end.

  (** A CubicSpline object (include/fields2cover/utils/spline.h:59-63). *)
  Record spline : Type := mkSpline { s_knots : list knot; s_coefs : list coef }.

  (** The coefficients before the last two assignments, and all rows
      (src/fields2cover/utils/spline.cpp:115-145). *)
  Definition spl_solve (k0 k1 : knot) (ks : list knot) : outcome (list row * list coef) :=
    let r0 := spl_row0 k0 k1 in
    do rs <- spl_rows r0 k0 k1 ks;
    Ok (r0 :: rs, spl_coefs (r0 :: rs) k0 (k1 :: ks)).

  (** Constructor: src/fields2cover/utils/spline.cpp:46-64,111-193.  With
      [monotonic] the last round of the loop at line 150 reads b_vec_[size_]
      (h[size_ - 1] is 0, so slope is 0 / 0 and the branch of line 168 is taken). *)
  Definition spl_make (xs ys : list N) (monotonic : bool) : outcome spline :=
    if negb (length xs =? length ys) then Throw OutOfRange
    else match combine xs ys with
         | k0 :: k1 :: ks =>
           do p <- spl_solve k0 k1 ks;
           if monotonic then UB else Ok (mkSpline (k0 :: k1 :: ks) (spl_clear (snd p)))
         | _ => Throw OutOfRange
         end.

  (** The binary search of src/fields2cover/utils/spline.cpp:91-100, [fuel] rounds. *)
  Fixpoint spl_search (fuel : nat) (xs : list N) (x : N) (l h : nat) : outcome nat :=
    if l <? h then
      match fuel with
      | O => Hang
      | S fuel =>
        let mid := Nat.div2 (l + h)%nat in
        do xm <- vec_index xs mid;
        if nleb N x xm then spl_search fuel xs x l mid else spl_search fuel xs x (S mid) h
      end
    else Ok l.

  (** The polynomial of src/fields2cover/utils/spline.cpp:104-108. *)
  Definition spl_poly (k : knot) (c : coef) (x : N) : N :=
    let xi := x - fst k in
    let xi2 := xi * xi in
    let xi3 := xi2 * xi in
    snd k + k_b c * xi + k_c c * xi2 + k_d c * xi3.

  (** src/fields2cover/utils/spline.cpp:88-109. *)
  Definition spl_eval (s : spline) (x : N) : outcome N :=
    let n := length (s_knots s) in
    do l <- spl_search n (map fst (s_knots s)) x 0 n;
    let idx := pred l in
    do k <- vec_index (s_knots s) idx;
    do c <- vec_index (s_coefs s) idx;
    Ok (spl_poly k c x).
End Spline.
Arguments mkRow {N}. Arguments mkCoef {N}. Arguments mkSpline {N}.
Arguments r_h {N}. Arguments r_l {N}. Arguments r_u {N}. Arguments r_z {N}.
Arguments k_b {N}. Arguments k_c {N}. Arguments k_d {N}.
Arguments s_knots {N}. Arguments s_coefs {N}.
