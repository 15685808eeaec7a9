(** Model of f2c::Random (src/fields2cover/utils/random.cpp), in exact arithmetic.
    The Mersenne twister is not modelled: the generator is any sequence of values
    standing for std::generate_canonical (in [0, 1) in the theorems), and its state is the
    number of values drawn. *)
From Coq Require Import List Arith ZArith Bool Reals.
From Verif Require Import Outcome Num Point_Model Angle_Model Container_Model SwathGen_Model Border_Model
  Text_Model Field_Model Transform_Model.
Import ListNotations.
Open Scope R_scope.

Section Random.
  (** The values of the generator mt_ (include/fields2cover/utils/random.h:88). *)
  Variable u : nat -> R.
  (** The text round trip of clone() (Container_Model), used by Cell::addRing
      (src/fields2cover/types/Cell.cpp:123-126). *)
  Variable wkt : rpoint -> rpoint.
  (** OGRPolygon::get_Area, called by Geometries::area
      (include/fields2cover/types/Geometries_impl.hpp:14-16). *)
  Variable get_area : rcell -> R.

  (** A computation with the generator: from the number of values drawn so far to a result
      and the new number (the member mt_, include/fields2cover/utils/random.h:88). *)
  Definition rnd (A : Type) : Type := nat -> outcome (A * nat).

  (** Random::getRandomLinear (src/fields2cover/utils/random.cpp:22-26), with
      std::uniform_real_distribution as in libstdc++.  A failing assert counts as UB. *)
  Definition getRandomLinear (min max : R) : rnd R := fun k =>
    if Rltb min max then Ok (u k * (max - min) + min, S k) else UB.

  (** Random::getRandomDouble (src/fields2cover/utils/random.cpp:18-20). *)
  Definition getRandomDouble : rnd R := getRandomLinear 0 1.

  (** Random::getRandomExp (src/fields2cover/utils/random.cpp:28-32).  The logarithm of a number
      that is not positive is not modelled: the theorems exclude it. *)
  Definition getRandomExp (min max : R) : rnd R := fun k =>
    if Rltb min max then
      do d <- getRandomDouble k;
      Ok (exp ((ln max - ln min) * fst d + ln min), snd d)
    else UB.

  (** Random::getRandomExpDist (src/fields2cover/utils/random.cpp:34-37), with
      std::exponential_distribution as in libstdc++. *)
  Definition getRandomExpDist (lambda : R) : rnd R := fun k => Ok (- ln (1 - u k) / lambda, S k).

  (** Random::getAngleRandom (src/fields2cover/utils/random.cpp:39-41). *)
  Definition getAngleRandom : rnd R := getRandomLinear 0 (2 * PI).

  (** The body of the loop of generateRandCell (src/fields2cover/utils/random.cpp:53-55). *)
  Definition rand_point (n_sides : Z) (min_width max_width : R) (i : nat) : rnd rpoint := fun k =>
    do r <- getRandomLinear min_width max_width k;
    do d <- getRandomDouble (snd r);
    let alpha := 2 * PI * (INR i + fst d) / IZR n_sides in
    Ok (mkPoint (N := RNum) (fst r * sin alpha) (fst r * cos alpha) 0, snd d).

  (** The loop of generateRandCell (src/fields2cover/utils/random.cpp:51-56). *)
  Definition rand_border (n_sides : Z) (min_width max_width : R) : rnd (list rpoint) := fun k =>
    foldM (fun st i => do p <- rand_point n_sides min_width max_width i (snd st); Ok (fst st ++ [fst p], snd p))
      (seq 0 (Z.to_nat n_sides)) ([], k).

  (** Random::generateRandCell (src/fields2cover/utils/random.cpp:43-61).  [None] stands for a cell
      whose coordinates are infinite or undefined, the result of dividing by an area 0
      (line 59). *)
  Definition generateRandCell (area : R) (n_sides : Z) (min_width max_width : R) : rnd (option rcell) := fun k =>
    if (n_sides <=? 2)%Z then Throw InvalidArgument
    else if Rleb area 0 then Throw InvalidArgument
    else
      do b <- rand_border n_sides min_width max_width k;
      do p <- line_getGeometry RNum (fst b) 0;
      let cell := cell_addRing RNum wkt [] (fst b ++ [p]) in
      if Req_EM_T (get_area cell) 0 then Ok (None, snd b)
      else
        do c <- cell_scale RNum (R_sqrt.sqrt (area / get_area cell)) cell;
        Ok (Some c, snd b).

  (** Cell::isConvex on such a cell, used at src/fields2cover/utils/random.cpp:73,86.  After scaling
      by infinity all coordinates are infinite or undefined, the heights 0 * infinity among the
      undefined ones, so the area is not <= 0 (src/fields2cover/types/Cell.cpp:142) and all angles
      are undefined: both comparisons with pi are false (src/fields2cover/types/Cell.cpp:155-160),
      and the answer is true. *)
  Definition rand_isConvex (c : option rcell) : outcome bool :=
    match c with None => Ok true | Some c => cell_isConvex get_area c end.

  (** The do-while loops of genConvexCell and genNonConvexCell
      (src/fields2cover/utils/random.cpp:71-73, 84-86): until isConvex is [want]. *)
  Fixpoint rand_until (fuel : nat) (want : bool) (area : R) (n_sides : Z) (k : nat) : outcome (option rcell * nat) :=
    match fuel with
    | O => Hang
    | S fuel =>
      do c <- generateRandCell area n_sides (/ 2) 1 k;
      do x <- rand_isConvex (fst c);
      if Bool.eqb x want then Ok c else rand_until fuel want area n_sides (snd c)
    end.

  (** The conversion of size_t to int (src/fields2cover/utils/random.cpp:72). *)
  Definition size_to_int (n : Z) : Z := ((n + 2 ^ 31) mod 2 ^ 32 - 2 ^ 31)%Z.

  (** Random::genConvexCell (src/fields2cover/utils/random.cpp:69-75). *)
  Definition genConvexCell (fuel : nat) (area : R) (n_sides : Z) : rnd (option rcell) :=
    rand_until fuel true area (size_to_int n_sides).

  (** Random::genNonConvexCell (src/fields2cover/utils/random.cpp:82-88). *)
  Definition genNonConvexCell (fuel : nat) (area : R) : rnd (option rcell) := rand_until fuel false area 9.

  (** Random::generateRandField (src/fields2cover/utils/random.cpp:63-67), for cells with finite
      coordinates. *)
  Definition generateRandField (area : R) (n_sides : Z) (min_width max_width : R) : rnd (option rfield) := fun k =>
    do c <- generateRandCell area n_sides min_width max_width k;
    match fst c with
    | None => Ok (None, snd c)
    | Some x => do f <- field_make RNum wkt [x] []; Ok (Some f, snd c)
    end.

  (** Field::Field(cells) on the cell drawn (src/fields2cover/utils/random.cpp:78-79, 91), for
      cells with finite coordinates as in [generateRandField]. *)
  Definition rand_field_of (c : option rcell * nat) : outcome (option rfield * nat) :=
    match fst c with
    | None => Ok (None, snd c)
    | Some x => do f <- field_make RNum wkt [x] []; Ok (Some f, snd c)
    end.

  (** Random::genConvexField (src/fields2cover/utils/random.cpp:77-80). *)
  Definition genConvexField (fuel : nat) (area : R) (n_sides : Z) : rnd (option rfield) := fun k =>
    do c <- genConvexCell fuel area n_sides k; rand_field_of c.

  (** Random::genNonConvexField (src/fields2cover/utils/random.cpp:90-92). *)
  Definition genNonConvexField (fuel : nat) (area : R) : rnd (option rfield) := fun k =>
    do c <- genNonConvexCell fuel area k; rand_field_of c.
End Random.
