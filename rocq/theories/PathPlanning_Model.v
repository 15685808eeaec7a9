(** Model of f2c::pp::PathPlanning
    (src/fields2cover/path_planning/path_planning.cpp), over the real numbers. *)
From Coq Require Import List Arith ZArith Bool Reals.
From Verif Require Import Outcome Num Swath_Model Route_Model Point_Model Angle_Model Objective_Model Path_Model Robot_Model.
Import ListNotations.
Open Scope R_scope.

Notation rswath := (swath rpoint R).

(** Swath::getInAngle over points (src/fields2cover/types/Swath.cpp:77-82). *)
Definition pp_inAngle (s : rswath) : outcome R :=
  sw_getInAngle RNum (fun a b : rpoint => angleFromPoint (p_sub RNum b a)) s.
(** Swath::getOutAngle over points (src/fields2cover/types/Swath.cpp:84-90). *)
Definition pp_outAngle (s : rswath) : outcome R :=
  sw_getOutAngle RNum (fun a b : rpoint => angleFromPoint (p_sub RNum b a)) s.
(** startPoint and endPoint (src/fields2cover/types/Swath.cpp:92-104). *)
Definition pp_start (s : rswath) : rpoint := swath_startPoint (p_default RNum) s.
(** src/fields2cover/types/Swath.cpp:99-104. *)
Definition pp_end (s : rswath) : rpoint := swath_endPoint (p_default RNum) s.

(** src/fields2cover/path_planning/path_planning.cpp:118-125: the inner points with
    a change of direction above 0.1 (the angles are in [0, 2 pi) and the difference
    is not wrapped). *)
Fixpoint conn_corners (mp : list rpoint) : list rpoint :=
  match mp with
  | a :: ((b :: c :: _) as t) =>
    let ang_in := angleFromPoint (p_sub RNum b a) in
    let ang_out := angleFromPoint (p_sub RNum c b) in
    if Rlt_dec (1 / 10) (Rabs (ang_in - ang_out)) then b :: conn_corners t else conn_corners t
  | _ => []
  end.

Section Simplify.
  Variable safe_dist : R.
  Variables p1 p2 : rpoint.

  (** std::vector<std::pair<F2CPoint, double>>
      (src/fields2cover/path_planning/path_planning.cpp:110). *)
  Definition pose : Type := (rpoint * R)%type.

  (** The body of src/fields2cover/path_planning/path_planning.cpp:132-155 for
      vp[i-1], vp[i], vp[i+1] = a, b, c. *)
  Definition simp_step (path : list pose) (a b c : rpoint) : outcome (list pose) :=
    let dist_in := p_distance b a in
    let dist_out := p_distance b c in
    if Req_EM_T dist_in 0 then Ok path
    else if Req_EM_T dist_out 0 then Ok path
    else
      let d_in := Rmin (/ 2 * dist_in) safe_dist in
      let d_out := Rmin (/ 2 * dist_out) safe_dist in
      let p_in := p_add RNum (p_scale RNum (p_sub RNum a b) (d_in / dist_in)) b in
      let p_out := p_add RNum (p_scale RNum (p_sub RNum c b) (d_out / dist_out)) b in
      do back <- vec_back path;
      let path :=
        if Rlt_dec (3 * safe_dist) (p_distance p_in (fst back)) then
        if Rlt_dec (3 * safe_dist) (p_distance p_in p1) then
        if Rlt_dec (3 * safe_dist) (p_distance p_in p2) then
          path ++ [(p_in, angleFromPoint (p_sub RNum b a))]
        else path else path else path in
      Ok
       (if Rlt_dec (3 * safe_dist) (p_distance p_out c) then
        if Rlt_dec (3 * safe_dist) (p_distance p_out p1) then
        if Rlt_dec (3 * safe_dist) (p_distance p_out p2) then
        if Rlt_dec (3 * safe_dist) (p_distance p_out p_in) then
          path ++ [(p_out, angleFromPoint (p_sub RNum c b))]
        else path else path else path else path).

  (** The loop of src/fields2cover/path_planning/path_planning.cpp:132-155. *)
  Fixpoint simp_loop (path : list pose) (vp : list rpoint) : outcome (list pose) :=
    match vp with
    | a :: ((b :: c :: _) as t) => do path <- simp_step path a b c; simp_loop path t
    | _ => Ok path
    end.
End Simplify.

Section Planning.
  (** The end point and heading of the clothoid of the given sharpness and length
      (end_of_clothoid of the steering_functions library, called in
      src/fields2cover/path_planning/path_planning.cpp:96-98). *)
  Variable clothoid : R -> R -> R * R * R.

  (** src/fields2cover/path_planning/path_planning.cpp:94-102. *)
  Definition getSmoothTurningRadius (rb : robot RNum) : R :=
    let '(x, y, ang) := clothoid (rb_getMaxDiffCurv RNum rb) (rb_getMaxCurv RNum rb / rb_getMaxDiffCurv RNum rb) in
    let xi := x - sin ang / rb_getMaxCurv RNum rb in
    let yi := y + cos ang / rb_getMaxCurv RNum rb in
    R_sqrt.sqrt (xi * xi + yi * yi).

  (** src/fields2cover/path_planning/path_planning.cpp:104-158. *)
  Definition simplifyConnection (rb : robot RNum) (p1 : rpoint) (ang1 : R) (mp : list rpoint) (p2 : rpoint) (ang2 : R)
    : outcome (list pose) :=
    let safe_dist := getSmoothTurningRadius rb in
    let path := [(p1, ang1)] in
    if Rlt_dec (p_distance p1 p2) (6 * safe_dist) then Ok (path ++ [(p2, ang2)])
    else if Nat.ltb (length mp) 2 then Ok (path ++ [(p2, ang2)])
    else
      let vp := conn_corners mp in
      if Nat.ltb (length vp) 2 then Ok (path ++ [(p2, ang2)])
      else do path <- simp_loop safe_dist p1 p2 path vp; Ok (path ++ [(p2, ang2)]).

  (** The planner object passed by reference and its createTurn
      (src/fields2cover/path_planning/turning_base.cpp:30-63, see Turning_Model): the
      state [T] is what the calls change. *)
  Variable T : Type.
  Variable turn : T -> robot RNum -> rpoint -> R -> rpoint -> R -> outcome (list (pstate RNum) * T).

  (** The loop of src/fields2cover/path_planning/path_planning.cpp:84-88 over
      consecutive poses. *)
  Fixpoint conn_turns (rb : robot RNum) (path : list (pstate RNum)) (t : T) (v_con : list pose)
    : outcome (list (pstate RNum) * T) :=
    match v_con with
    | a :: ((b :: _) as v) =>
      do r <- turn t rb (fst a) (snd a) (fst b) (snd b);
      do path <- path_append RNum false path (fst r);
      conn_turns rb path (snd r) v
    | _ => Ok (path, t)
    end.

  (** src/fields2cover/path_planning/path_planning.cpp:75-90. *)
  Definition planConnection (t : T) (rb : robot RNum) (p1 : rpoint) (ang1 : R) (mp : list rpoint) (p2 : rpoint) (ang2 : R)
    : outcome (list (pstate RNum) * T) :=
    do v_con <- simplifyConnection rb p1 ang1 mp p2 ang2;
    conn_turns rb [] t v_con.

  (** src/fields2cover/path_planning/path_planning.cpp:46-73; None is the early
      return. *)
  Definition planPathForConnection (t : T) (rb : robot RNum) (s1 : list rswath) (mp : list rpoint) (s2 : list rswath)
    : outcome (list (pstate RNum) * T) :=
    do a <- (if Nat.ltb 0 (length s1) then
               do s <- vec_back s1; do g <- pp_outAngle s; Ok (Some (pp_end s, g))
             else if Nat.ltb 0 (length mp) then
               do p <- vec_at mp 0; do g <- mp_getOutAngle mp 0; Ok (Some (p, g))
             else Ok None);
    match a with
    | None => Ok ([], t)
    | Some (p1, ang1) =>
      do b <- (if Nat.ltb 0 (length s2) then
                 do s <- vec_index s2 0; do g <- pp_inAngle s; Ok (Some (pp_start s, g))
               else if Nat.ltb 0 (length mp) then
                 do p <- vec_at mp (length mp - 1); do g <- mp_getInAngle mp (length mp - 1); Ok (Some (p, g))
               else Ok None);
      match b with
      | None => Ok ([], t)
      | Some (p2, ang2) => planConnection t rb p1 ang1 mp p2 ang2
      end
    end.

  (** The body of src/fields2cover/path_planning/path_planning.cpp:32-38. *)
  Definition plan_step (rb : robot RNum) (swaths : list rswath) (pt : list (pstate RNum) * T) (i : nat)
    : outcome (list (pstate RNum) * T) :=
    let '(path, t) := pt in
    do s <- vec_index swaths i;
    do path <- path_appendSwath path (sw_path s) (rb_getCruiseVel RNum rb);
    do n <- vec_index swaths (i + 1);
    do a <- pp_outAngle s;
    do b <- pp_inAngle n;
    do r <- turn t rb (pp_end s) a (pp_start n) b;
    do d <- path_discretize (fst r) (1 / 10);
    do path <- path_append RNum false path d;
    Ok (path, snd r).

  (** src/fields2cover/path_planning/path_planning.cpp:28-44. *)
  Definition planPath_swaths (t : T) (rb : robot RNum) (swaths : list rswath) : outcome (list (pstate RNum) * T) :=
    do pt <- (if Nat.ltb 1 (length swaths) then foldM (plan_step rb swaths) (seq 0 (length swaths - 1)) ([], t)
              else Ok ([], t));
    let '(path, t) := pt in
    if Nat.ltb 0 (length swaths) then
      do s <- vec_back swaths;
      do path <- path_appendSwath path (sw_path s) (rb_getCruiseVel RNum rb);
      Ok (path, t)
    else Ok (path, t).

  (** The body of src/fields2cover/path_planning/path_planning.cpp:15-20. *)
  Definition route_step (rb : robot RNum) (route : route rpoint R) (pt : list (pstate RNum) * T) (i : nat)
    : outcome (list (pstate RNum) * T) :=
    let '(path, t) := pt in
    do prev_swaths <- (if Nat.ltb 0 i then r_getSwaths route (i - 1) else Ok []);
    do mp <- r_getConnection route i;
    do s <- r_getSwaths route i;
    do r <- planPathForConnection t rb prev_swaths mp s;
    do path <- path_append RNum false path (fst r);
    do r' <- planPath_swaths (snd r) rb s;
    do path <- path_append RNum false path (fst r');
    Ok (path, snd r').

  (** src/fields2cover/path_planning/path_planning.cpp:12-26. *)
  Definition planPath_route (t : T) (rb : robot RNum) (route : route rpoint R) : outcome (list (pstate RNum) * T) :=
    do pt <- foldM (route_step rb route) (seq 0 (r_sizeVectorSwaths route)) ([], t);
    let '(path, t) := pt in
    if Nat.ltb (r_sizeVectorSwaths route) (r_sizeConnections route) then
      do l <- r_getLastSwaths route;
      do c <- r_getLastConnection route;
      do r <- planPathForConnection t rb l c [];
      do path <- path_append RNum false path (fst r);
      Ok (path, snd r)
    else Ok (path, t).
End Planning.
