(** Model of swaths, swath lists and the single-cell ordering strategies.

    The point type [P] and the width type [W] are arbitrary, and so are the
    operations on them that the code uses: this covers every floating-point
    value, NaN included.  *)
From Coq Require Import List Arith ZArith Bool Permutation Sorted.
From Verif Require Import Outcome.
Import ListNotations.

(** include/fields2cover/types/Swath.h:21 (enum class SwathType). *)
Inductive swath_type : Set := MAINLAND | HEADLAND.

(** include/fields2cover/types/Swath.h:98-102 (the five data members).  The
    centre line [path_] is its list of points. *)
Record swath {P W : Type} : Type := mkSwath {
  sw_id : Z;
  sw_path : list P;
  sw_width : W;
  sw_dir : bool;
  sw_type : swath_type
}.
Arguments swath : clear implicits.

(** std::rotate(begin+first, begin+middle, begin+last) on a vector; an
    iterator outside [begin, end] or out of order is undefined behaviour
    (called in src/fields2cover/route_planning/snake_order.cpp:14,18 and
    spiral_order.cpp:30-32). *)
Definition std_rotate {A} (l : list A) (first middle last : nat)
  : outcome (list A) :=
  if (first <=? middle) && (middle <=? last) && (last <=? length l) then
    Ok (firstn first l
        ++ firstn (last - middle) (skipn middle l)
        ++ firstn (middle - first) (skipn first l)
        ++ skipn last l)
  else UB.

(** std::reverse(begin+first, begin+last)
    (called in src/fields2cover/route_planning/snake_order.cpp:16). *)
Definition std_reverse {A} (l : list A) (first last : nat)
  : outcome (list A) :=
  if (first <=? last) && (last <=? length l) then
    Ok (firstn first l
        ++ rev (firstn (last - first) (skipn first l))
        ++ skipn last l)
  else UB.

(** What the standard guarantees for std::sort(begin, end) with operator<:
    some permutation in which no later element is less than an earlier one.
    Nothing is said about the order of equivalent elements
    (called in src/fields2cover/types/Swaths.cpp:133). *)
Definition std_sorted {A} (lt : A -> A -> bool) (l l' : list A) : Prop :=
  Permutation l l' /\ StronglySorted (fun a b => lt b a = false) l'.

Section Swath.
  Context {P W : Type}.

  (** src/fields2cover/types/Swath.cpp:172, the test [0 >= _width]. *)
  Variable w_nonpos : W -> bool.
  (** The value [0.0] of include/fields2cover/types/Swath.h:100. *)
  Variable w_zero : W.
  (** The default point [{}] of src/fields2cover/types/Swath.cpp:94,101. *)
  Variable p_default : P.
  (** Point::operator< (src/fields2cover/types/Point.cpp:52-55). *)
  Variable p_lt : P -> P -> bool.
  (** Effect on one point of LineString::clone(), which goes through WKT text
      (include/fields2cover/types/Geometries_impl.hpp:18-23,
      include/fields2cover/types/Geometry_impl.hpp exportToWkt/importFromWkt). *)
  Variable wkt : P -> P.

  Notation swath := (swath P W).

  (** src/fields2cover/types/Swath.cpp:11 and include/fields2cover/types/Swath.h:98-102:
      default constructor. *)
  Definition swath_default : swath := mkSwath P W 0%Z [] w_zero true MAINLAND.

  (** src/fields2cover/types/Swath.cpp:12: constructor from a path only. *)
  Definition swath_of_path (path : list P) : swath :=
    mkSwath P W 0%Z path w_zero true MAINLAND.

  (** src/fields2cover/types/Swath.cpp:171-176. *)
  Definition swath_setWidth (s : swath) (w : W) : outcome swath :=
    if w_nonpos w then Throw InvalidArgument
    else Ok (mkSwath P W (sw_id s) (sw_path s) w (sw_dir s) (sw_type s)).

  (** src/fields2cover/types/Swath.cpp:14-16: constructor from a width. *)
  Definition swath_of_width (w : W) : outcome swath :=
    swath_setWidth swath_default w.

  (** src/fields2cover/types/Swath.cpp:18-21: full constructor. *)
  Definition swath_new (path : list P) (w : W) (id : Z) (ty : swath_type)
    : outcome swath :=
    swath_setWidth (mkSwath P W id path w_zero true ty) w.

  (** src/fields2cover/types/Swath.cpp:155-157. *)
  Definition swath_setId (s : swath) (i : Z) : swath :=
    mkSwath P W i (sw_path s) (sw_width s) (sw_dir s) (sw_type s).

  (** src/fields2cover/types/Swath.cpp:163-165. *)
  Definition swath_setPath (s : swath) (path : list P) : swath :=
    mkSwath P W (sw_id s) path (sw_width s) (sw_dir s) (sw_type s).

  (** src/fields2cover/types/Swath.cpp:182-184. *)
  Definition swath_setCreationDir (s : swath) (d : bool) : swath :=
    mkSwath P W (sw_id s) (sw_path s) (sw_width s) d (sw_type s).

  (** src/fields2cover/types/Swath.cpp:190-192. *)
  Definition swath_setType (s : swath) (ty : swath_type) : swath :=
    mkSwath P W (sw_id s) (sw_path s) (sw_width s) (sw_dir s) ty.

  (** src/fields2cover/types/Swath.cpp:72-75. *)
  Definition swath_reverse (s : swath) : swath :=
    mkSwath P W (sw_id s) (rev (sw_path s)) (sw_width s)
            (negb (sw_dir s)) (sw_type s).

  (** src/fields2cover/types/Swath.cpp:92-97. *)
  Definition swath_startPoint (s : swath) : P :=
    match sw_path s with [] => p_default | p :: _ => p end.

  (** src/fields2cover/types/Swath.cpp:99-104. *)
  Definition swath_endPoint (s : swath) : P :=
    match rev (sw_path s) with [] => p_default | p :: _ => p end.

  (** src/fields2cover/types/Swath.cpp:117-121: the type is not passed to the
      constructor, and the constructor checks the width again. *)
  Definition swath_clone (s : swath) : outcome swath :=
    do n <- swath_new (map wkt (sw_path s)) (sw_width s) (sw_id s) MAINLAND;
    Ok (swath_setCreationDir n (sw_dir s)).

  (** src/fields2cover/types/Swath.cpp:123-125. *)
  Definition swath_hasSameDir (s t : swath) : bool :=
    Bool.eqb (sw_dir t) (sw_dir s).

  (** src/fields2cover/types/Swath.cpp:127-131. *)
  Definition swath_targetSameDirAs (s t : swath) : swath :=
    if swath_hasSameDir s t then s else swath_reverse s.

  (** src/fields2cover/types/Swath.cpp:133-137. *)
  Definition swath_targetOppositeDirAs (s t : swath) : swath :=
    if swath_hasSameDir s t then swath_reverse s else s.

  (** src/fields2cover/types/Swath.cpp:42-44, operator<. *)
  Definition swath_lt (s t : swath) : bool := (sw_id s <? sw_id t)%Z.

  (** The comparisons of doubles in operator!=: [a != b] on widths and
      lengths, and [x1 != x2 || y1 != y2] on points
      (src/fields2cover/types/Swath.cpp:29,34,35). *)
  Variable w_neq : W -> W -> bool.
  Variable p_neq_xy : P -> P -> bool.
  (** LineString::length(), computed by the geometry library
      (src/fields2cover/types/Swath.cpp:60-62). *)
  Variable path_length : list P -> W.

  (** src/fields2cover/types/Swath.cpp:28-36, [s != t] with [s] = *this. *)
  Definition swath_neq (s t : swath) : bool :=
    if w_neq (sw_width t) (sw_width s) then true
    else
      let this_p := swath_startPoint s in
      let s_p := if swath_hasSameDir s t then swath_startPoint t
                 else swath_endPoint t in
      p_neq_xy this_p s_p
      || w_neq (path_length (sw_path t)) (path_length (sw_path s)).

  (** src/fields2cover/types/Swath.cpp:38-40: the argument and *this are
      swapped. *)
  Definition swath_eq (s t : swath) : bool := negb (swath_neq t s).

  (** src/fields2cover/types/Swath.cpp:46-48. *)
  Definition swath_gt (s t : swath) : bool := (sw_id t <? sw_id s)%Z.

  (** src/fields2cover/types/Swath.cpp:50-53. *)
  Definition swath_ge (s t : swath) : bool :=
    (sw_id t <? sw_id s)%Z || ((sw_id s =? sw_id t)%Z && swath_eq s t).

  (** src/fields2cover/types/Swath.cpp:55-58. *)
  Definition swath_le (s t : swath) : bool :=
    (sw_id s <? sw_id t)%Z || ((sw_id s =? sw_id t)%Z && swath_eq s t).

  (** src/fields2cover/types/Swaths.cpp:142-148. *)
  Definition swaths_clone (l : list swath) : outcome (list swath) :=
    mapM swath_clone l.

  (** src/fields2cover/types/Swaths.cpp:58-60. *)
  Definition swaths_reverse (l : list swath) : list swath := rev l.

  (** src/fields2cover/types/Swaths.cpp:128-132: orient every swath. *)
  Definition swath_orient (s : swath) : swath :=
    if p_lt (swath_endPoint s) (swath_startPoint s)
    then swath_reverse s else s.

  (** The std::sort call of src/fields2cover/types/Swaths.cpp:133; any function
      that satisfies [std_sorted swath_lt]. *)
  Variable sort_fn : list swath -> list swath.

  (** src/fields2cover/types/Swaths.cpp:127-134. *)
  Definition swaths_sort (l : list swath) : list swath :=
    sort_fn (map swath_orient l).

  (** src/fields2cover/types/Swaths.cpp:136-140, the loop from index 1 on:
      [prev] is data_[i-1] after its own update. *)
  Fixpoint reverseDirOdd_from (prev : swath) (l : list swath) : list swath :=
    match l with
    | [] => []
    | s :: l =>
        let s' := swath_targetOppositeDirAs s prev in
        s' :: reverseDirOdd_from s' l
    end.

  (** src/fields2cover/types/Swaths.cpp:136-140. *)
  Definition swaths_reverseDirOddSwaths (l : list swath) : list swath :=
    match l with
    | [] => []
    | s :: l => s :: reverseDirOdd_from s l
    end.

  (** src/fields2cover/types/Swaths.cpp:90-92 (LineString overload);
      the id is the current size, converted to int (sizes below 2^31). *)
  Definition swaths_append_line (l : list swath) (line : list P) (w : W)
      (ty : swath_type) : outcome (list swath) :=
    do s <- swath_new line w (Z.of_nat (length l)) ty;
    Ok (l ++ [s]).

  (** src/fields2cover/types/Swaths.cpp:94-99 (MultiLineString overload). *)
  Definition swaths_append_lines (l : list swath) (lines : list (list P))
      (w : W) (ty : swath_type) : outcome (list swath) :=
    foldM (fun acc line => swaths_append_line acc (map wkt line) w ty) lines l.

  (** src/fields2cover/types/Swaths.cpp:121-125. *)
  Definition swaths_append_swaths (l s : list swath) : list swath := l ++ s.

  (** src/fields2cover/route_planning/single_cell_swaths_order_base.cpp:25-33;
      [variant] is a uint32_t, [swaths[0]] is operator[]. *)
  Definition changeStartPoint (l : list swath) (variant : N)
    : outcome (list swath) :=
    let l1 := if N.testbit variant 0 then swaths_reverse l else l in
    if N.testbit variant 1 then
      do s <- vec_index l1 0; vec_set l1 0 (swath_reverse s)
    else Ok l1.

  (** src/fields2cover/route_planning/boustrophedon_order.cpp:11-12. *)
  Definition boustrophedon_sortSwaths (l : list swath) : outcome (list swath) :=
    Ok l.

  (** src/fields2cover/route_planning/snake_order.cpp:11-20.  Only called with
      a non-empty list (single_cell_swaths_order_base.cpp:16), so
      [swaths.size() - 1] does not wrap.  The loop variable ends with the value
      of the bound. *)
  Definition snake_sortSwaths (l : list swath) : outcome (list swath) :=
    let n := length l in
    let bound := (n - 1) / 2 + 1 in
    do l1 <- foldM (fun acc i => std_rotate acc i (i + 1) (length acc))
                   (seq 1 (bound - 1)) l;
    do l2 <- std_reverse l1 (bound + 1) (length l1);
    if n mod 2 =? 1 then std_rotate l2 bound (bound + 1) (length l2)
    else Ok l2.

  (** src/fields2cover/route_planning/spiral_order.cpp:28-34, the loop from
      [j] on; [fuel] only bounds the recursion. *)
  Fixpoint spiral_loop (fuel : nat) (l : list swath) (offset size j : nat)
    : outcome (list swath) :=
    if j <? size then
      match fuel with
      | O => Hang
      | S fuel =>
          do l' <- std_rotate l (offset + j) (offset + size - 1) (offset + size);
          spiral_loop fuel l' offset size (j + 2)
      end
    else Ok l.

  (** src/fields2cover/route_planning/spiral_order.cpp:28-34. *)
  Definition spiral (l : list swath) (offset size : nat) : outcome (list swath) :=
    spiral_loop size l offset size ((offset + 1) mod 2).

  (** src/fields2cover/route_planning/spiral_order.cpp:16-26; division by zero
      is undefined behaviour.  [int swaths_left] is a size below 2^31. *)
  Definition spiral_sortSwaths (spiral_size : nat) (l : list swath)
    : outcome (list swath) :=
    if spiral_size =? 0 then UB else
    let spiral_count := length l / spiral_size in
    do l1 <- foldM (fun acc i => spiral acc (i * spiral_size) spiral_size)
                   (seq 0 spiral_count) l;
    let swaths_left := length l - spiral_count * spiral_size in
    if 1 <? swaths_left then spiral l1 (spiral_count * spiral_size) swaths_left
    else Ok l1.

  (** src/fields2cover/route_planning/spiral_order.cpp:6-8: the constructor
      clamps (for arguments below 2^31); setSpiralSize (12-14) does not. *)
  Definition spiral_ctor_size (sp_size : nat) : nat := Nat.max 2 sp_size.

  (** std::sort on size_t (custom_order.cpp:29): the result is determined. *)
  Fixpoint nat_insert (x : nat) (l : list nat) : list nat :=
    match l with
    | [] => [x]
    | y :: l => if x <=? y then x :: y :: l else y :: nat_insert x l
    end.
  (** std::sort on size_t (src/fields2cover/route_planning/custom_order.cpp:29). *)
  Definition nat_sort (l : list nat) : list nat := fold_right nat_insert [] l.

  (** std::unique + erase (custom_order.cpp:30-31): drop equal neighbours. *)
  Fixpoint nat_unique (l : list nat) : list nat :=
    match l with
    | x :: ((y :: _) as t) => if x =? y then nat_unique t else x :: nat_unique t
    | l => l
    end.

  (** src/fields2cover/route_planning/custom_order.cpp:25-48; dereferencing
      max_element of an empty vector is undefined behaviour;
      [swaths.size() - 1] is evaluated with size() > 0 only (see above). *)
  Definition custom_check (order : list nat) (l : list swath) : outcome unit :=
    let uniq := nat_unique (nat_sort order) in
    if negb (length uniq =? length order) then Throw InvalidArgument
    else if negb (length l =? length order) then Throw LengthError
    else match order with
         | [] => UB
         | x :: t =>
             let max_el := fold_left Nat.max t x in
             if length l - 1 <? max_el then Throw InvalidArgument else Ok tt
         end.

  (** src/fields2cover/route_planning/custom_order.cpp:16-23. *)
  Definition custom_sortSwaths (order : list nat) (l : list swath)
    : outcome (list swath) :=
    do _ <- custom_check order l;
    foldM (fun acc p =>
             do s <- vec_index l (snd p); vec_set acc (fst p) s)
          (combine (seq 0 (length order)) order)
          (repeat swath_default (length l)).

  (** The four classes derived from SingleCellSwathsOrderBase:
      include/fields2cover/route_planning/boustrophedon_order.h:16, snake_order.h:16,
      spiral_order.h:10, custom_order.h:15. *)
  Inductive order_kind : Type :=
  | Boustrophedon
  | Snake
  | Spiral (spiral_size : nat)
  | Custom (custom_order : list nat).

  (** Virtual dispatch of sortSwaths
      (src/fields2cover/route_planning/single_cell_swaths_order_base.cpp:19). *)
  Definition sortSwaths (k : order_kind) (l : list swath) : outcome (list swath) :=
    match k with
    | Boustrophedon => boustrophedon_sortSwaths l
    | Snake => snake_sortSwaths l
    | Spiral s => spiral_sortSwaths s l
    | Custom o => custom_sortSwaths o l
    end.

  (** src/fields2cover/route_planning/single_cell_swaths_order_base.cpp:12-23. *)
  Definition genSortedSwaths (k : order_kind) (l : list swath) (variant : N)
    : outcome (list swath) :=
    do c <- swaths_clone l;
    match c with
    | [] => Ok []
    | _ =>
        do l1 <- changeStartPoint (swaths_sort c) variant;
        do l2 <- sortSwaths k l1;
        Ok (swaths_reverseDirOddSwaths l2)
    end.

  (** src/fields2cover/types/SwathsByCells.cpp:74-83 (and 85-94): the loop; the
      list is data_ from index [j] on, [at] throws past the end. *)
  Fixpoint sbc_getSwath (d : list (list swath)) (i : nat) : outcome swath :=
    match d with
    | [] => Throw OutOfRange
    | c :: d' =>
        if length c <=? i then sbc_getSwath d' (i - length c)
        else vec_at c i
    end.

  (** src/fields2cover/types/SwathsByCells.cpp:100-104; the accumulator of
      std::accumulate has type int because the initial value is [0], so each
      partial sum is reduced to 32 bits. *)
  Definition to_int32 (z : Z) : Z :=
    ((z + 2147483648) mod 4294967296 - 2147483648)%Z.
  (** Conversion to size_t (src/fields2cover/types/SwathsByCells.cpp:100-104). *)
  Definition to_size (z : Z) : Z := (z mod 18446744073709551616)%Z.
  (** SwathsByCells::sizeTotal (src/fields2cover/types/SwathsByCells.cpp:100-104). *)
  Definition sbc_sizeTotal (d : list (list swath)) : Z :=
    to_size (fold_left
      (fun acc c => to_int32 (to_size (to_size acc + Z.of_nat (length c)))%Z) d 0%Z).

  (** src/fields2cover/types/SwathsByCells.cpp:122-128. *)
  Definition sbc_flatten (d : list (list swath)) : list swath :=
    fold_left (fun acc c => swaths_append_swaths acc c) d [].

  (** src/fields2cover/types/SwathsByCells.cpp:114-120. *)
  Definition sbc_clone (d : list (list swath)) : outcome (list (list swath)) :=
    mapM swaths_clone d.
End Swath.
