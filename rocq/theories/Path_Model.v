(** Model of f2c::types::Path and PathState (src/fields2cover/types/Path.cpp,
    PathState.cpp, include/fields2cover/types/PathState.h). *)
From Coq Require Import List Arith ZArith Bool Reals.
From Verif Require Import Outcome Num Swath_Model Point_Model Angle_Model Spline_Model.
Import ListNotations.

(** The enumerators of include/fields2cover/types/PathState.h:15-25; both enums
    are ints, and loadFile stores whatever number it reads.  (HL_SWATH = 3, line 18, is used
    nowhere in the library.) *)
Definition SEC_SWATH : Z := 1.
(** include/fields2cover/types/PathState.h:17. *)
Definition SEC_TURN : Z := 2.
(** include/fields2cover/types/PathState.h:22. *)
Definition DIR_FORWARD : Z := 1.
(** include/fields2cover/types/PathState.h:23. *)
Definition DIR_BACKWARD : Z := -1.

(** include/fields2cover/types/PathState.h:27-33. *)
Record pstate (N : Num) : Type :=
  mkPS { ps_point : point N; ps_angle : N; ps_len : N; ps_dir : Z; ps_type : Z; ps_vel : N }.
Arguments mkPS {N}. Arguments ps_point {N}. Arguments ps_angle {N}. Arguments ps_len {N}.
Arguments ps_dir {N}. Arguments ps_type {N}. Arguments ps_vel {N}.

Section Path.
  Variable N : Num.
  (** std::cos and std::sin. *)
  Variables cosf sinf : N -> N.
  Let zero := nofZ N 0.

  (** The default state: include/fields2cover/types/PathState.h:28-33. *)
  Definition ps_default : pstate N :=
    mkPS (mkPoint zero zero zero) zero zero DIR_FORWARD SEC_SWATH (nofZ N 1).

  (** src/fields2cover/types/PathState.cpp:11-13. *)
  Definition ps_atEnd (s : pstate N) : point N :=
    p_getPointFromAngle N (cosf (ps_angle s)) (sinf (ps_angle s)) (ps_point s)
      (nmul N (ps_len s) (nofZ N (ps_dir s))).

  (** src/fields2cover/types/Path.cpp:14-24 (getState, setState and operator[] are
      unchecked). *)
  Definition path_getState (p : list (pstate N)) (i : nat) : outcome (pstate N) := vec_index p i.
  (** src/fields2cover/types/Path.cpp:22-24. *)
  Definition path_setState (p : list (pstate N)) (i : nat) (s : pstate N) : outcome (list (pstate N)) := vec_set p i s.
  (** src/fields2cover/types/Path.cpp:26-28. *)
  Definition path_addState (p : list (pstate N)) (s : pstate N) : list (pstate N) := p ++ [s].

  (** src/fields2cover/types/Path.cpp:99-104; [aliased] says that the argument is the
      path itself, whose iterators emplace_back invalidates. *)
  Definition path_append (aliased : bool) (p q : list (pstate N)) : outcome (list (pstate N)) :=
    if aliased then (match p with [] => Ok [] | _ => UB end)
    else Ok (fold_left path_addState q p).

  (** src/fields2cover/types/Path.cpp:205-208. *)
  Definition path_length (p : list (pstate N)) : N :=
    fold_left (fun d s => nadd N d (nabs N (ps_len s))) p zero.

  (** src/fields2cover/types/Path.cpp:54-57. *)
  Definition path_getTaskTime (p : list (pstate N)) : N :=
    fold_left (fun d s => nadd N (ndiv N (ps_len s) (ps_vel s)) d) p zero.

  (** src/fields2cover/types/Path.cpp:233-249. *)
  Fixpoint path_at_loop (len : N) (p : list (pstate N)) : pstate N :=
    match p with
    | [] => ps_default
    | s :: p =>
      let len_state := nabs N (ps_len s) in
      if nltb N len_state len then path_at_loop (nsub N len len_state) p
      else
        let len := nmul N len (nofZ N (ps_dir s)) in
        mkPS (mkPoint (nadd N (px (ps_point s)) (nmul N len (cosf (ps_angle s))))
                      (nadd N (py (ps_point s)) (nmul N len (sinf (ps_angle s)))) zero)
             (ps_angle s) (ps_len s) (ps_dir s) (ps_type s) (ps_vel s)
    end.

  (** src/fields2cover/types/Path.cpp:225-250; the two recursive calls pass a value
      that the tests of lines 227 and 229 let through. *)
  Definition path_at (p : list (pstate N)) (len : N) : pstate N :=
    let total := path_length p in
    if nltb N total len then path_at_loop total p
    else if nltb N len zero then path_at_loop zero p
    else path_at_loop len p.

  (** src/fields2cover/types/Path.cpp:252-254. *)
  Definition path_atStart (p : list (pstate N)) : outcome (point N) :=
    do s <- vec_index p 0; Ok (ps_point s).
  (** src/fields2cover/types/Path.cpp:256-258. *)
  Definition path_atEnd (p : list (pstate N)) : outcome (point N) :=
    do s <- vec_back p; Ok (ps_atEnd s).

  (** src/fields2cover/types/Path.cpp:425-432. *)
  Definition path_toLineString (p : list (pstate N)) : outcome (list (point N)) :=
    do e <- path_atEnd p; Ok (map ps_point p ++ [e]).

  (** src/fields2cover/types/Path.cpp:138-142. *)
  Definition path_moveTo (v : point N) (p : list (pstate N)) : list (pstate N) :=
    map (fun s => mkPS (p_add N (ps_point s) v) (ps_angle s) (ps_len s) (ps_dir s) (ps_type s) (ps_vel s)) p.

  (** src/fields2cover/types/Path.cpp:170-172,180-182,190-192,200-202: the state at an
      int index; [f] is the assignment. *)
  Definition path_set_at (f : pstate N -> pstate N) (p : list (pstate N)) (i : Z) : outcome (list (pstate N)) :=
    if (i <? 0)%Z then UB else do s <- vec_index p (Z.to_nat i); vec_set p (Z.to_nat i) (f s).
  (** The assignment of a direction: src/fields2cover/types/Path.cpp:171,181. *)
  Definition ps_with_dir (d : Z) (s : pstate N) : pstate N :=
    mkPS (ps_point s) (ps_angle s) (ps_len s) d (ps_type s) (ps_vel s).
  (** The assignment of a type: src/fields2cover/types/Path.cpp:191,201. *)
  Definition ps_with_type (t : Z) (s : pstate N) : pstate N :=
    mkPS (ps_point s) (ps_angle s) (ps_len s) (ps_dir s) t (ps_vel s).
  (** The loops over all indices: src/fields2cover/types/Path.cpp:164-168,174-178,184-188,
      194-198. *)
  Definition path_set_all (f : pstate N -> pstate N) (p : list (pstate N)) : outcome (list (pstate N)) :=
    foldM (fun p i => path_set_at f p (Z.of_nat i)) (seq 0 (length p)) p.

  (** std::min_element of src/fields2cover/types/Path.cpp:110-115,117-122: dereferencing
      end() of an empty path is undefined. *)
  Definition path_dim_min (coord : point N -> N) (p : list (pstate N)) : outcome N :=
    match p with
    | [] => UB
    | s :: p => Ok (fold_left (fun m s => if nltb N (coord (ps_point s)) m then coord (ps_point s) else m) p (coord (ps_point s)))
    end.
  (** src/fields2cover/types/Path.cpp:124-136. *)
  Definition path_dim_max (coord : point N -> N) (p : list (pstate N)) : outcome N :=
    match p with
    | [] => UB
    | s :: p => Ok (fold_left (fun m s => if nltb N m (coord (ps_point s)) then coord (ps_point s) else m) p (coord (ps_point s)))
    end.

  (** Planar distance (src/fields2cover/types/Path.cpp:406-407; OGRGeometry::Distance). *)
  Definition pt_distance (a b : point N) : N :=
    nsqrt N (nadd N (nmul N (nsub N (px a) (px b)) (nsub N (px a) (px b)))
                    (nmul N (nsub N (py a) (py b)) (nsub N (py a) (py b)))).

  (** The condition of src/fields2cover/types/Path.cpp:404-407. *)
  Definition path_same (min_dist_equal : N) (s t : pstate N) : bool :=
    (ps_type s =? ps_type t)%Z && (ps_dir s =? ps_dir t)%Z &&
    nltb N (pt_distance (ps_point s) (ps_point t)) min_dist_equal.

  (** The two loops of src/fields2cover/types/Path.cpp:400-420: [s] is state i and
      [new_len] its length so far, [p] the states from j on. *)
  Fixpoint path_reduce_from (min_dist_equal : N) (s : pstate N) (new_len : N) (p : list (pstate N)) : list (pstate N) :=
    let state := mkPS (ps_point s) (ps_angle s) new_len (ps_dir s) (ps_type s) (ps_vel s) in
    match p with
    | [] => [state]
    | t :: p' =>
      if path_same min_dist_equal s t then path_reduce_from min_dist_equal s (nadd N new_len (ps_len t)) p'
      else state :: path_reduce_from min_dist_equal t (ps_len t) p'
    end.
  (** src/fields2cover/types/Path.cpp:397-423. *)
  Definition path_reduce (min_dist_equal : N) (p : list (pstate N)) : list (pstate N) :=
    match p with [] => [] | s :: p => path_reduce_from min_dist_equal s (ps_len s) p end.
End Path.

Section RPath.
  Open Scope R_scope.
  Notation rstate := (pstate RNum).

  (** src/fields2cover/types/Path.cpp:144-149. *)
  Definition path_rotate (c : rpoint) (ang : R) (p : list rstate) : list rstate :=
    map (fun s : rstate => mkPS (N := RNum) (rotateFromPoint c ang (ps_point s)) (mod_2pi (ps_angle s + ang))
                    (ps_len s) (ps_dir s) (ps_type s) (ps_vel s)) p.
  (** src/fields2cover/types/Path.cpp:151-156. *)
  Definition path_mirrorX (p : list rstate) : list rstate :=
    map (fun s : rstate => mkPS (N := RNum) (mkPoint (N := RNum) (- px (ps_point s)) (py (ps_point s)) (pz (ps_point s)))
                    (mod_2pi (PI - ps_angle s)) (ps_len s) (ps_dir s) (ps_type s) (ps_vel s)) p.
  (** src/fields2cover/types/Path.cpp:157-162. *)
  Definition path_mirrorY (p : list rstate) : list rstate :=
    map (fun s : rstate => mkPS (N := RNum) (mkPoint (N := RNum) (px (ps_point s)) (- py (ps_point s)) (pz (ps_point s)))
                    (mod_2pi (- ps_angle s)) (ps_len s) (ps_dir s) (ps_type s) (ps_vel s)) p.

  (** The states of src/fields2cover/types/Path.cpp:211-221 for consecutive points. *)
  Fixpoint swath_states (speed : R) (l : list rpoint) : list rstate :=
    match l with
    | a :: ((b :: _) as t) =>
      mkPS (N := RNum) a (angleFromPoint (mkPoint (N := RNum) (px b - px a) (py b - py a) 0))
        (p_distance b a) DIR_FORWARD SEC_SWATH speed :: swath_states speed t
    | _ => []
    end.
  (** src/fields2cover/types/Path.cpp:210-223; without points numPoints() - 1 wraps
      around and getPoint(0) throws (src/fields2cover/types/LineString.cpp:83-90). *)
  Definition path_appendSwath (p : list rstate) (swath_pts : list rpoint) (speed : R) : outcome (list rstate) :=
    match swath_pts with [] => Throw OutOfRange | _ => Ok (p ++ swath_states speed swath_pts) end.

  (** max(1.0, round(fabs(len / step))) of src/fields2cover/types/Path.cpp:309 as a
      number of rounds; for step 0 the quotient is infinite (the loop of line 311
      does not end), or 0 / 0 (one round). *)
  Definition ds_steps (len step_size : R) : outcome nat :=
    if Req_EM_T step_size 0 then (if Req_EM_T len 0 then Ok 1%nat else Hang)
    else Ok (Nat.max 1 (Z.to_nat (Int_part (Rabs (len / step_size) + / 2)))).

  (** The states of src/fields2cover/types/Path.cpp:310-316. *)
  Definition ds_states (s : rstate) (n : nat) : list rstate :=
    let start2end := p_sub RNum (ps_atEnd RNum cos sin s) (ps_point s) in
    map (fun j => mkPS (N := RNum) (p_add RNum (ps_point s) (p_scale RNum start2end (INR j / INR n)))
                    (ps_angle s) (ps_len s / INR n) (ps_dir s) (ps_type s) (ps_vel s)) (seq 0 n).

  (** src/fields2cover/types/Path.cpp:305-322. *)
  Fixpoint path_discretizeSwath (step_size : R) (p : list rstate) : outcome (list rstate) :=
    match p with
    | [] => Ok []
    | s :: p =>
      do l <- (if (ps_type s =? SEC_SWATH)%Z then do n <- ds_steps (ps_len s) step_size; Ok (ds_states s n) else Ok [s]);
      do r <- path_discretizeSwath step_size p;
      Ok (l ++ r)
    end.

  (** std::partial_sum into t.begin() + 1 with t[0] = 0
      (src/fields2cover/types/Path.cpp:372-373). *)
  Fixpoint pop_t (acc : R) (lens : list R) : list R :=
    match lens with [] => [acc] | l :: lens => acc :: pop_t (acc + l) lens end.

  (** std::lower_bound on a sorted vector: the number of elements below v
      (src/fields2cover/types/Path.cpp:388). *)
  Fixpoint lower_bound (v : R) (t : list R) : nat :=
    match t with [] => 0%nat | x :: t => if Rlt_dec x v then S (lower_bound v t) else 0%nat end.

  (** The loop body of src/fields2cover/types/Path.cpp:384-392; [old] are the states
      the attribute vectors were read from. *)
  Definition pop_state (sx sy sa : spline RNum) (t : list R) (old : list rstate) (step : R) (i : nat) : outcome rstate :=
    let d := INR i * step in
    do x <- spl_eval RNum sx d;
    do y <- spl_eval RNum sy d;
    do a <- spl_eval RNum sa d;
    match lower_bound (d + / 10000000000) t with
    | O => UB
    | S it =>
      do o <- vec_index old it;
      Ok (mkPS (N := RNum) (mkPoint (N := RNum) x y 0) (mod_2pi a) step (ps_dir o) (ps_type o) (ps_vel o))
    end.

  (** src/fields2cover/types/Path.cpp:346-395; the int bound of the loop of line 383 is
      converted to size_t. *)
  Definition path_populate (p : list rstate) (number_points : Z) : outcome (list rstate) :=
    if (length p <? 3)%nat then Ok p
    else
      do back <- vec_back p;
      let kept := filter (fun s : rstate => negb (Reqb (ps_len s) 0)) p in
      let x := map (fun s : rstate => px (ps_point s)) kept ++ [px (ps_atEnd RNum cos sin back)] in
      let y := map (fun s : rstate => py (ps_point s)) kept ++ [py (ps_atEnd RNum cos sin back)] in
      do ang <- getAngContinuity_vec (map (@ps_angle RNum) kept ++ [ps_angle back]);
      let t := pop_t 0 (map (@ps_len RNum) kept) in
      do sx <- spl_make RNum t x false;
      do sy <- spl_make RNum t y false;
      do sa <- spl_make RNum t ang false;
      let step := last t 0 / IZR number_points in
      mapM (pop_state sx sy sa t (kept ++ [back]) step) (seq 0 (Z.to_nat (number_points mod 18446744073709551616))).

  (** src/fields2cover/types/Path.cpp:434-441; the conversion to int is undefined for
      step 0 (infinite or 0 / 0) and out of range. *)
  Definition path_discretize (p : list rstate) (step_size : R) : outcome (list rstate) :=
    if (1 <? length p)%nat then
      if Req_EM_T step_size 0 then UB
      else
        do n <- to_int (Rtrunc (10 / step_size * path_length RNum p));
        do p' <- path_populate p n;
        Ok (path_reduce RNum step_size p')
    else Ok p.
End RPath.
