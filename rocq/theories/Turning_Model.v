(** Model of f2c::pp::TurningBase (src/fields2cover/path_planning/turning_base.cpp),
    of include/fields2cover/path_planning/steer_to_path.hpp and of the retry loop of
    src/fields2cover/path_planning/dubins_curves_cc.cpp, over the real numbers.
    The curves themselves come from the steering_functions library and are
    arguments here. *)
From Coq Require Import List Arith ZArith Bool Reals.
From Verif Require Import Outcome Num Point_Model Angle_Model Path_Model Robot_Model.
Import ListNotations.
Open Scope R_scope.

(** src/fields2cover/path_planning/turning_base.cpp:11-27; the fifth number of the
    vector is read back as a truth value (line 51). *)
Definition transformToNormalTurn (start_pos : rpoint) (start_angle : R) (end_pos : rpoint) (end_angle : R)
  : R * R * R * R * bool :=
  let dist_start_end := p_distance start_pos end_pos in
  let dir := p_sub RNum end_pos start_pos in
  let angle := mod_2pi (angleFromPoint dir) in
  let start_angle := mod_2pi (start_angle - angle) in
  let end_angle := mod_2pi (end_angle - angle) in
  if Rlt_dec PI start_angle
  then (dist_start_end, angle, mod_2pi (- start_angle), mod_2pi (- end_angle), true)
  else (dist_start_end, angle, start_angle, end_angle, false).

(** The loop of src/fields2cover/path_planning/turning_base.cpp:51-55. *)
Definition turn_mirror (s : pstate RNum) : pstate RNum :=
  mkPS (N := RNum) (mkPoint (N := RNum) (px (ps_point s)) (- py (ps_point s)) (pz (ps_point s)))
    (mod_2pi (- ps_angle s)) (ps_len s) (ps_dir s) (ps_type s) (ps_vel s).

(** The loop of src/fields2cover/path_planning/turning_base.cpp:56-59. *)
Definition turn_place (rot_angle : R) (start_pos : rpoint) (s : pstate RNum) : pstate RNum :=
  mkPS (N := RNum) (p_add RNum (rotateFromPoint (mkPoint (N := RNum) 0 0 0) rot_angle (ps_point s)) start_pos)
    (mod_2pi (ps_angle s + rot_angle)) (ps_len s) (ps_dir s) (ps_type s) (ps_vel s).

(** The default argument 0.05 as a float
    (include/fields2cover/path_planning/turning_base.h:83-86). *)
Definition max_error_dist : R := 13421773 / 268435456.

(** s.point = p (src/fields2cover/path_planning/turning_base.cpp:73,76). *)
Definition ps_with_point (p : rpoint) (s : pstate RNum) : pstate RNum :=
  mkPS (N := RNum) p (ps_angle s) (ps_len s) (ps_dir s) (ps_type s) (ps_vel s).

(** src/fields2cover/path_planning/turning_base.cpp:65-78. *)
Definition correctPath (path : list (pstate RNum)) (start_pos end_pos : rpoint) : outcome (list (pstate RNum)) :=
  if Nat.ltb (length path) 2 then Ok path
  else
    do s <- vec_index path 0;
    do path <- (if Rlt_dec (p_distance (ps_point s) start_pos) max_error_dist
                then vec_set path 0 (ps_with_point start_pos s) else Ok path);
    do e <- vec_back path;
    if Rlt_dec (p_distance (ps_point e) end_pos) max_error_dist
    then vec_set path (length path - 1) (ps_with_point end_pos e) else Ok path.

(** static_cast<int>(1e3 * x) (src/fields2cover/path_planning/turning_base.cpp:84-88). *)
Definition milli (x : R) : outcome Z := to_int (Rtrunc (1000 * x)).

(** The members of include/fields2cover/path_planning/turning_base.h:91-93; the map
    as an association list. *)
Record turner : Type := mkTurner {
  t_cache : list (list Z * list (pstate RNum)); t_disc : R; t_using : bool }.

(** include/fields2cover/path_planning/turning_base.h:91-93: a new planner. *)
Definition turner_new : turner := mkTurner [] (1 / 100) true.

(** path_cache_.find (src/fields2cover/path_planning/turning_base.cpp:90). *)
Fixpoint cache_find (k : list Z) (c : list (list Z * list (pstate RNum))) : option (list (pstate RNum)) :=
  match c with
  | [] => None
  | (k', p) :: c => if list_eq_dec Z.eq_dec k k' then Some p else cache_find k c
  end.

Section Turning.
  (** The virtual createSimpleTurn
      (include/fields2cover/path_planning/turning_base.h:50-51), a function of the robot, the
      member discretization and the three numbers. *)
  Variable simple : robot RNum -> R -> R -> R -> R -> outcome (list (pstate RNum)).

  (** src/fields2cover/path_planning/turning_base.cpp:83-89. *)
  Definition turn_key (rb : robot RNum) (dist_start_end start_angle end_angle : R) : outcome (list Z) :=
    mapM milli [rb_getMaxCurv RNum rb; rb_getMaxDiffCurv RNum rb; dist_start_end; start_angle; end_angle].

  (** src/fields2cover/path_planning/turning_base.cpp:81-97. *)
  Definition createTurnIfNotCached (t : turner) (rb : robot RNum) (dist_start_end start_angle end_angle : R)
    : outcome (list (pstate RNum) * turner) :=
    do v_turn <- turn_key rb dist_start_end start_angle end_angle;
    match cache_find v_turn (t_cache t) with
    | Some p => Ok (p, t)
    | None =>
      do p <- simple rb (t_disc t) dist_start_end start_angle end_angle;
      Ok (p, mkTurner ((v_turn, p) :: t_cache t) (t_disc t) (t_using t))
    end.

  (** src/fields2cover/path_planning/turning_base.cpp:30-63. *)
  Definition createTurn (t : turner) (rb : robot RNum) (start_pos : rpoint) (start_angle : R)
      (end_pos : rpoint) (end_angle : R) : outcome (list (pstate RNum) * turner) :=
    let '(dist_start_end, rot_angle, start_angle_t, end_angle_t, inverted) :=
      transformToNormalTurn start_pos start_angle end_pos end_angle in
    do r <- (if t_using t then createTurnIfNotCached t rb dist_start_end start_angle_t end_angle_t
             else do p <- simple rb (t_disc t) dist_start_end start_angle_t end_angle_t; Ok (p, t));
    let '(path, t) := r in
    if Nat.leb (length path) 1 then Ok ([], t)
    else
      let path := if inverted then map turn_mirror path else path in
      let path := map (turn_place rot_angle start_pos) path in
      do path <- correctPath path start_pos end_pos;
      Ok (path, t).

  (** src/fields2cover/path_planning/turning_base.cpp:118-120. *)
  Definition t_setDiscretization (t : turner) (d : R) : turner := mkTurner (t_cache t) d (t_using t).
  (** src/fields2cover/path_planning/turning_base.cpp:126-128. *)
  Definition t_setUsingCache (t : turner) (c : bool) : turner := mkTurner (t_cache t) (t_disc t) c.

  (** The public calls that read or change the members
      (include/fields2cover/path_planning/turning_base.h:33-43,72,77). *)
  Inductive turn_op : Type :=
  | OpTurn (rb : robot RNum) (p : rpoint) (a : R) (q : rpoint) (b : R)
  | OpCached (rb : robot RNum) (d sa ea : R)
  | OpDisc (d : R)
  | OpUse (c : bool).

  (** One call (src/fields2cover/path_planning/turning_base.cpp:30,81,118,126). *)
  Definition turn_step (t : turner) (o : turn_op) : outcome turner :=
    match o with
    | OpTurn rb p a q b => do r <- createTurn t rb p a q b; Ok (snd r)
    | OpCached rb d sa ea => do r <- createTurnIfNotCached t rb d sa ea; Ok (snd r)
    | OpDisc d => Ok (t_setDiscretization t d)
    | OpUse c => Ok (t_setUsingCache t c)
    end.
End Turning.

(** src/fields2cover/path_planning/turning_base.cpp:100-112. *)
Definition isTurnValid (path : list (pstate RNum)) (dist_start_end end_angle max_dist max_rot_error : R) : outcome bool :=
  if existsb (fun s : pstate RNum => Rltb (py (ps_point s)) (- max_dist)) path then Ok false
  else
    do p_end <- path_atEnd RNum cos sin path;
    do b <- vec_back path;
    Ok (Rleb (1 - max_rot_error) (cos (ps_angle b - end_angle)) &&
        Rltb (Rabs (px p_end - dist_start_end)) max_dist &&
        Rltb (Rabs (py p_end)) max_dist)%bool.

(** steer::State as used by
    include/fields2cover/path_planning/steer_to_path.hpp:21-40. *)
Record steer_state : Type := mkSteer { st_x : R; st_y : R; st_theta : R; st_d : R }.

(** The lambda compute_dist
    (include/fields2cover/path_planning/steer_to_path.hpp:24-28). *)
Definition steer_dist (curve : list steer_state) (i : nat) : outcome R :=
  if Nat.ltb (i + 1) (length curve) then
    do a <- vec_index curve i;
    do b <- vec_index curve (i + 1);
    Ok (p_distance (mkPoint (N := RNum) (st_x a) (st_y a) 0) (mkPoint (N := RNum) (st_x b) (st_y b) 0))
  else Ok 0.

(** include/fields2cover/path_planning/steer_to_path.hpp:21-40. *)
Definition steerStatesToPath (curve : list steer_state) (const_vel : R) : outcome (list (pstate RNum)) :=
  foldM (fun path i =>
    do c <- vec_index curve i;
    do len <- steer_dist curve i;
    do dir <- to_int (Rtrunc (st_d c));
    Ok (path_addState RNum path
          (mkPS (N := RNum) (mkPoint (N := RNum) (st_x c) (st_y c) 0) (st_theta c) len dir SEC_TURN const_vel)))
    (seq 0 (length curve)) [].

(** The loop of include/fields2cover/path_planning/steer_to_path.hpp:46-56 over the
    remaining controls (delta_s, kappa). *)
Fixpoint loop_from (drTotal drAbsTotal : R) (controls : list (R * R)) : bool :=
  match controls with
  | [] => Rltb (9 / 10) (Rabs drTotal) || Rltb (15 / 10) drAbsTotal
  | (delta_s, kappa) :: controls =>
    if Reqb kappa 0 then loop_from drTotal drAbsTotal controls
    else
      let dr := / 2 * delta_s * kappa / PI in
      if Rltb (9 / 10) (Rabs dr) then true
      else loop_from (drTotal + dr) (drAbsTotal + Rabs dr) controls
  end.
(** include/fields2cover/path_planning/steer_to_path.hpp:43-57. *)
Definition loop_detected (controls : list (R * R)) : bool := loop_from 0 0 controls.

Section CC.
  (** get_controls and get_path of the continuous-curvature state space between the two
      given states, as functions of its curvature and sharpness limits and the
      discretization (src/fields2cover/path_planning/dubins_curves_cc.cpp:32-36,65-69;
      steering_functions library). *)
  Variable get_controls : R -> R -> R -> list (R * R).
  Variable get_path : R -> R -> R -> list steer_state.

  (** The loop of src/fields2cover/path_planning/dubins_curves_cc.cpp:31-43 and 64-76 with
      [n] = 0, 1, 2, …; the first one has no flag fix_loops (true here).  The result is the
      last value of n and the path. *)
  Fixpoint cc_loop (fuel : nat) (fix_loops : bool) (rb : robot RNum) (disc : R) (n : nat)
    : outcome (nat * list (pstate RNum)) :=
    match fuel with
    | O => Hang
    | S fuel =>
      let kappa := rb_getMaxCurv RNum rb / (1 + 5 / 100 * INR n) in
      let sigma := rb_getMaxDiffCurv RNum rb / (1 + 2 / 10 * INR n) in
      if fix_loops && loop_detected (get_controls kappa sigma disc) && Rleb (INR n) 20
      then cc_loop fuel fix_loops rb disc (S n)
      else
        do p <- steerStatesToPath (get_path kappa sigma disc) (rb_getTurnVel RNum rb);
        Ok (n, p)
    end.
End CC.
