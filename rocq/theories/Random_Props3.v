(** Theorems about random convex fields (properties C288, C289). *)
From Coq Require Import List Arith ZArith Lia Bool Reals Ratan Lra Psatz.
From Verif Require Import Outcome Num ListAux Point_Model Angle_Model Angle_Spec Container_Model Container_Spec SwathGen_Model Border_Model Border_Spec
  Field_Model Field_Spec Field_Proofs Field_Props Random_Model Random_Spec Random_Proofs Random_Props Random_Props2.
Import ListNotations.
Open Scope R_scope.

Lemma angle_moved (a b c d : pt) : angleFromPoints3 (p_sub RNum a d) (p_sub RNum b d) (p_sub RNum c d) = angleFromPoints3 a b c.
Proof.
  assert (S : forall x y : pt, p_sub RNum (p_sub RNum x d) (p_sub RNum y d) = p_sub RNum x y).
  { intros x y. unfold p_sub. cbn [px py pz]. f_equal; cbn; ring. }
  unfold angleFromPoints3. now rewrite !S.
Qed.
Lemma vec_at_map {A B} (g : A -> B) l i : vec_at (map g l) i = do x <- vec_at l i; Ok (g x).
Proof. unfold vec_at. rewrite nth_error_map. now destruct (nth_error l i). Qed.
Lemma getAng_moved r d i : getAng (map (fun p : pt => p_sub RNum p d) r) i = getAng r i.
Proof.
  unfold getAng. rewrite !vec_at_map. destruct (vec_at r i) as [a| | |]; [|reflexivity..]. cbn [bind].
  destruct (vec_at r (i + 1)) as [b| | |]; [|reflexivity..]. cbn [bind].
  destruct (vec_at r (i + 2)) as [c| | |]; [|reflexivity..]. cbn [bind]. f_equal. apply angle_moved.
Qed.
Lemma convex_loop_moved r d inv is : convex_loop (map (fun p : pt => p_sub RNum p d) r) inv is = convex_loop r inv is.
Proof.
  induction is as [|i is IH]; [reflexivity|]. cbn [convex_loop]. rewrite getAng_moved. destruct (getAng r i) as [a| | |]; [|reflexivity..].
  cbn [bind]. destruct (Bool.eqb inv (Rltb a PI)); [exact IH|reflexivity].
Qed.

(** Moving a cell by a vector, in coordinates. *)
Definition moved (d : pt) (c : list (list pt)) : list (list pt) :=
  map (map (fun p : pt => mkPoint (N := RNum) (px p - px d) (py p - py d) (pz p - pz d))) c.

(** C288: whether a cell counts as convex does not depend on where it lies, if its area does
    not. *)
Theorem convex_moved : forall ga c d, ga (moved d c) = ga c -> cell_isConvex ga (moved d c) = cell_isConvex ga c.
Proof.
  intros ga c d G. unfold cell_isConvex. rewrite G. unfold moved at 1. rewrite map_length.
  destruct (Nat.ltb 0 (length c - 1) || Rleb (ga c) 0); [reflexivity|].
  destruct c as [|r c]; [reflexivity|]. unfold moved. cbn [map]. rewrite map_length.
  destruct (Nat.ltb (length r) 2); [reflexivity|].
  change (map (fun p : pt => mkPoint (N := RNum) (px p - px d) (py p - py d) (pz p - pz d)) r) with (map (fun p : pt => p_sub RNum p d) r).
  rewrite getAng_moved. destruct (getAng r 0) as [a| | |]; [|reflexivity..]. cbn [bind]. apply convex_loop_moved.
Qed.

Lemma shoelace_moved (d first : pt) l : forall a : pt,
  let m := fun p : pt => mkPoint (N := RNum) (px p - px d) (py p - py d) (pz p - pz d) in
  shoelace (m first) (map m (a :: l)) = shoelace first (a :: l) - px d * (py first - py a) + py d * (px first - px a).
Proof.
  cbv zeta. induction l as [|b l IH]; intro a.
  - cbn [map shoelace px py]. cbn. ring.
  - specialize (IH b).
    assert (K : forall f x y t, shoelace f (x :: y :: t) = px x * py y - px y * py x + shoelace f (y :: t)) by reflexivity.
    cbn [map] in *. rewrite !K, IH. cbn [px py]. cbn. ring.
Qed.
Lemma ring_area_moved d r : ring_area (moved d [r]) = ring_area [r].
Proof.
  destruct r as [|a l]; [reflexivity|]. unfold moved. cbn [map ring_area].
  pose proof (shoelace_moved d a l a) as S. cbv zeta in S. cbn [map] in S. rewrite S. f_equal. f_equal. ring.
Qed.

(** C289: the field made of a random convex (not convex) cell holds that cell, moved so that its
    border starts at the origin, and is convex (not convex) for the same test. *)
Theorem gen_convex_field : forall u ga fuel area n k f k', area_of_ring ga ->
  (genConvexField u (fun p => p) ga fuel area n k = Ok (Some f, k') ->
     exists c, genConvexCell u (fun p => p) ga fuel area n k = Ok (Some c, k') /\
       f_id f = [] /\ f_cells f = [moved (f_ref f) c] /\ getCellsAbsPosition RNum (fun p => p) f = [c] /\
       (exists p r, c = [p :: r] /\ f_ref f = p) /\ cells_isConvex ga (f_cells f) = Ok true) /\
  (genNonConvexField u (fun p => p) ga fuel area k = Ok (Some f, k') ->
     exists c, genNonConvexCell u (fun p => p) ga fuel area k = Ok (Some c, k') /\
       f_id f = [] /\ f_cells f = [moved (f_ref f) c] /\ getCellsAbsPosition RNum (fun p => p) f = [c] /\
       (exists p r, c = [p :: r] /\ f_ref f = p) /\ cells_isConvex ga (f_cells f) = Ok false).
Proof.
  intros u ga fuel area n k f k' GA.
  assert (ONE : forall m q c q', generateRandCell u (fun p => p) ga area m (/ 2) 1 q = Ok (Some c, q') -> exists p r, c = [p :: r] /\ closed (p :: r)).
  { intros m q c q' E. destruct (rand_cell_result _ _ _ _ _ _ _ _ _ _ E) as (Hn & Ha & Hw).
    destruct (rand_cell_area u (fun p => p) ga area m (/ 2) 1 q GA Hn Ha Hw) as (v & D & H0 & H1). cbv zeta in *.
    destruct (Req_EM_T (ring_area [map (fun p : pt => p) (ring_of v)]) 0) as [Z|Z]; [rewrite H0 in E by exact Z; discriminate E|].
    destruct (H1 Z) as (s & r & _ & _ & E' & L & C & _). rewrite E in E'. injection E' as -> _.
    destruct r as [|p r]; [discriminate L|]. now exists p, r. }
  assert (MAIN : forall b c q q', generateRandCell u (fun p => p) ga area b (/ 2) 1 q = Ok (Some c, q') ->
    forall want, cell_isConvex ga c = Ok want -> rand_field_of (fun p => p) (Some c, k') = Ok (Some f, k') ->
    f_id f = [] /\ f_cells f = [moved (f_ref f) c] /\ getCellsAbsPosition RNum (fun p => p) f = [c] /\
    (exists p r, c = [p :: r] /\ f_ref f = p) /\ cells_isConvex ga (f_cells f) = Ok want).
  { intros b c q q' E want X F. destruct (ONE _ _ _ _ E) as (p & r & -> & C).
    assert (W : well_formed [[p :: r]]).
    { intros x [<-|[]]. split; [now do 3 eexists|]. intros y [<-|[]]. exact C. }
    unfold rand_field_of in F. cbn [fst snd] in F. rewrite field_make_ok in F by exact W. cbn [bind] in F.
    assert (INJ : forall a b : rfield, Ok (Some a, k') = Ok (Some b, k') -> b = a) by congruence.
    apply INJ in F. change (first_point [[p :: r]]) with p in F. subst f.
    cbn [f_id f_cells f_ref first_point].
    assert (MV : map (map (map (fun x : pt => p_sub RNum x p))) [[p :: r]] = [moved p [p :: r]]) by reflexivity.
    split; [reflexivity|]. split; [exact MV|]. split.
    - rewrite abs_ok by (cbn [f_cells]; exact (well_formed_map (fun x : pt => p_sub RNum x p) _ W)). cbn [f_cells f_ref].
      rewrite map3_map.
      rewrite <- (map3_id [[p :: r]]) at 2. apply map_ext. intro x. apply map_ext. intro y. apply map_ext. intros [x1 x2 x3].
      unfold p_add, p_sub. cbn [px py pz]. f_equal; cbn; ring.
    - split; [now exists p, r|]. rewrite MV. unfold cells_isConvex.
      assert (NE : cell_isEmpty RNum (moved p [p :: r]) = false) by reflexivity.
      unfold coll_size, coll_getGeometry, coll_size. cbn [forallb]. rewrite NE. cbn [andb length Nat.eqb negb].
      change (vec_at [moved p [p :: r]] 0) with (Ok (moved p [p :: r])). cbn [bind].
      rewrite <- X. apply convex_moved. rewrite (GA (p :: r)), <- (ring_area_moved p (p :: r)). apply GA. }
  split; intro H.
  - unfold genConvexField in H. destruct (genConvexCell u (fun p => p) ga fuel area n k) as [[[c|] q]| | |] eqn:E; try discriminate H; cbn [bind] in H.
    assert (q = k') as ->.
    { unfold rand_field_of in H. cbn [fst snd] in H. destruct (field_make RNum (fun p => p) [c] []); try discriminate H. cbn [bind] in H. now injection H as _ <-. }
    exists c. split; [reflexivity|].
    unfold genConvexCell in E. revert E. generalize (size_to_int n) as m. intros m E.
    assert (U : forall fuel q, rand_until u (fun p => p) ga fuel true area m q = Ok (Some c, k') ->
      cell_isConvex ga c = Ok true /\ exists q0, generateRandCell u (fun p => p) ga area m (/ 2) 1 q0 = Ok (Some c, k')).
    { induction fuel0 as [|fu IH]; intros q Q; [discriminate Q|]. cbn [rand_until] in Q.
      destruct (generateRandCell u (fun p => p) ga area m (/ 2) 1 q) as [[c0 q0]| | |] eqn:G; try discriminate Q. cbn [bind fst snd] in Q.
      destruct (rand_isConvex ga c0) as [x| | |] eqn:X; try discriminate Q. cbn [bind] in Q.
      destruct (Bool.eqb x true) eqn:B; [|exact (IH _ Q)]. injection Q as -> ->. apply Bool.eqb_prop in B. subst x. split; [exact X|]. now exists q. }
    destruct (U _ _ E) as [X [q0 G]]. exact (MAIN _ _ _ _ G _ X H).
  - unfold genNonConvexField in H. destruct (genNonConvexCell u (fun p => p) ga fuel area k) as [[[c|] q]| | |] eqn:E; try discriminate H; cbn [bind] in H.
    assert (q = k') as ->.
    { unfold rand_field_of in H. cbn [fst snd] in H. destruct (field_make RNum (fun p => p) [c] []); try discriminate H. cbn [bind] in H. now injection H as _ <-. }
    exists c. split; [reflexivity|].
    destruct (proj1 (proj2 (gen_convex u (fun p => p) ga fuel area 3 k ltac:(lia))) _ _ E) as (x & j & EQ & X & _ & G).
    injection EQ as <-. exact (MAIN _ _ _ _ G _ X H).
Qed.

(** *** Examples *)
(** A unit square somewhere, and moved to the origin. *)
Example convex_moved_ex : ring_area (moved (mkPoint (N := RNum) 5 7 0) [[mkPoint (N := RNum) 5 7 0; mkPoint (N := RNum) 6 7 0; mkPoint (N := RNum) 6 8 0; mkPoint (N := RNum) 5 8 0; mkPoint (N := RNum) 5 7 0]]) =
  ring_area [[mkPoint (N := RNum) 5 7 0; mkPoint (N := RNum) 6 7 0; mkPoint (N := RNum) 6 8 0; mkPoint (N := RNum) 5 8 0; mkPoint (N := RNum) 5 7 0]] /\
  moved (mkPoint (N := RNum) 5 7 0) [[mkPoint (N := RNum) 6 8 0]] = [[mkPoint (N := RNum) 1 1 0]].
Proof. split; [apply ring_area_moved|]. unfold moved. cbn [map px py pz]. do 3 f_equal; cbn; ring. Qed.
(** The triangle drawn by a generator that always gives 0 makes a convex field. *)
Example gen_convex_field_ex : exists f, genConvexField (fun _ => 0) (fun p => p) ring_area 1 3 3 0%nat = Ok (Some f, 6%nat) /\
  cells_isConvex ring_area (f_cells f) = Ok true.
Proof.
  destruct gen_triangle_ex as (r & A & G & C).
  destruct (rand_field (fun _ => 0) (fun p => p) ring_area 0 3 3 (/ 2) 1 0%nat [r] 6%nat id_area_zero within_id G) as (f & F & _).
  assert (H : genConvexField (fun _ => 0) (fun p => p) ring_area 1 3 3 0%nat = Ok (Some f, 6%nat)).
  { unfold genConvexField. rewrite C. cbn [bind]. unfold generateRandField in F. rewrite G in F. exact F. }
  exists f. split; [exact H|].
  destruct (proj1 (gen_convex_field _ _ _ _ _ _ _ _ id_area_zero) H) as (c & _ & _ & _ & _ & _ & X). exact X.
Qed.

Print Assumptions convex_moved.
Print Assumptions gen_convex_field.
