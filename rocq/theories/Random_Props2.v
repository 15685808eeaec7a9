(** Theorems about random convex cells (properties C274, C275). *)
From Coq Require Import List Arith ZArith Lia Bool Reals Ratan Lra Psatz.
From Verif Require Import Outcome Num ListAux Point_Model Angle_Model Angle_Spec Angle_Proofs Container_Model Container_Spec Container_Proofs
  Container_Props SwathGen_Model Border_Model Border_Spec Border_Props Random_Model Random_Spec Random_Proofs Random_Props.
Import ListNotations.
Open Scope R_scope.

(** Draws that give a dart with its notch at the first point. *)
Definition dart_draws (k : nat) : R :=
  match k with
  | 0%nat => 0 | 1%nat => 2 * asin (3 / 5) / PI
  | 2%nat => 4 / 5 | 3%nat => 0
  | 4%nat => 4 / 5 | 5%nat => 0
  | 6%nat => 4 / 5 | _ => 1 - 2 * asin (7 / 25) / PI
  end.
Definition dart_vertices : list pt :=
  [mkPoint (N := RNum) (3 / 10) (2 / 5) 0; mkPoint (N := RNum) (9 / 10) 0 0; mkPoint (N := RNum) 0 (- (9 / 10)) 0;
   mkPoint (N := RNum) (- (63 / 250)) (108 / 125) 0].

Lemma asin_in x : 0 < x < 1 -> 0 < asin x < PI / 2.
Proof.
  intro H. destruct (asin_bound_lt x) as [A B]; [lra|]. split; [|exact B].
  destruct (Rlt_le_dec 0 (asin x)) as [|N]; [assumption|exfalso].
  assert (S : sin (asin x) = x) by (apply sin_asin; lra). pose proof PI_RGT_0 as P.
  destruct N as [N|N]; [|rewrite N, sin_0 in S; lra].
  assert (sin (asin x) < 0) by (apply sin_lt_0_var; lra). lra.
Qed.

Lemma cos_asin_val x y : 0 < x < 1 -> 0 < y -> x * x + y * y = 1 -> cos (asin x) = y.
Proof.
  intros H Y E. rewrite cos_asin by lra. unfold Rsqr. replace (1 - x * x) with (y * y) by lra. apply sqrt_square. lra.
Qed.

Lemma dart_unit : unit_values dart_draws.
Proof.
  intro k. pose proof PI_RGT_0 as P. destruct (asin_in (3 / 5)) as [A B]; [lra|]. destruct (asin_in (7 / 25)) as [A' B']; [lra|].
  assert (Q : forall x, 0 < x < PI / 2 -> 0 < 2 * x / PI < 1).
  { intros x [H1 H2]. split.
    - apply Rmult_lt_0_compat; [lra|]. apply Rinv_0_lt_compat; lra.
    - apply (Rmult_lt_reg_r PI); [lra|]. unfold Rdiv. rewrite Rmult_assoc, Rinv_l by lra. lra. }
  pose proof (Q _ (conj A B)). pose proof (Q _ (conj A' B')).
  unfold dart_draws. do 7 (destruct k as [|k]; [lra|]). lra.
Qed.

Lemma dart_drawn v : drawn dart_draws 0 4 (/ 2) 1 v -> v = dart_vertices.
Proof.
  intros (L & D). pose proof PI_RGT_0 as P. destruct v as [|p0 [|p1 [|p2 [|p3 [|]]]]]; try discriminate L.
  destruct (D 0%nat p0 eq_refl) as (r0 & a0 & R0 & A0 & X0 & Y0 & Z0). destruct (D 1%nat p1 eq_refl) as (r1 & a1 & R1 & A1 & X1 & Y1 & Z1).
  destruct (D 2%nat p2 eq_refl) as (r2 & a2 & R2 & A2 & X2 & Y2 & Z2). destruct (D 3%nat p3 eq_refl) as (r3 & a3 & R3 & A3 & X3 & Y3 & Z3).
  cbn [Nat.add Nat.mul dart_draws] in *. simpl INR in *.
  replace a0 with (asin (3 / 5)) in * by (rewrite A0; field; lra).
  replace a1 with (PI / 2) in * by (rewrite A1; field).
  replace a2 with PI in * by (rewrite A2; field).
  replace a3 with (- asin (7 / 25) + 2 * PI) in * by (rewrite A3; field; lra).
  rewrite sin_asin in X0 by lra. rewrite (cos_asin_val (3 / 5) (4 / 5)) in Y0 by lra.
  rewrite sin_PI2 in X1. rewrite cos_PI2 in Y1. rewrite sin_PI in X2. rewrite cos_PI in Y2.
  replace (- asin (7 / 25) + 2 * PI) with (- asin (7 / 25) + 2 * INR 1 * PI) in X3, Y3 by (simpl INR; ring).
  rewrite sin_period, sin_neg, sin_asin in X3 by lra. rewrite cos_period, cos_neg, (cos_asin_val (7 / 25) (24 / 25)) in Y3 by lra.
  destruct p0 as [x0 y0 z0], p1 as [x1 y1 z1], p2 as [x2 y2 z2], p3 as [x3 y3 z3]. cbn [px py pz] in *.
  change (carrier RNum) with R in *. subst x0 y0 z0 x1 y1 z1 x2 y2 z2 x3 y3 z3 r0 r1 r2 r3. unfold dart_vertices.
  assert (E : forall a b c d : R, a = c -> b = d -> mkPoint (N := RNum) a b 0 = mkPoint (N := RNum) c d 0) by (intros; subst; reflexivity).
  f_equal; [apply E; lra|]. f_equal; [apply E; lra|]. f_equal; [apply E; lra|]. f_equal. apply E; lra.
Qed.

Lemma dart_size : ring_area [ring_of dart_vertices] = 549 / 625.
Proof. unfold ring_area, ring_of, dart_vertices; cbn [app shoelace px py]. rewrite Rabs_left; lra. Qed.

Lemma dart_moves : no_stop (ring_of dart_vertices).
Proof.
  intros pre a b post E. unfold dart_vertices, ring_of in E; cbn [app] in E.
  destruct pre as [|? pre]; cbn [app] in E; [injection E as <- <- _; unfold dist2; cbn [px py]; lra|].
  destruct pre as [|? pre]; cbn [app] in E; [injection E as _ <- <- _; unfold dist2; cbn [px py]; lra|].
  destruct pre as [|? pre]; cbn [app] in E; [injection E as _ _ <- <- _; unfold dist2; cbn [px py]; lra|].
  destruct pre as [|? pre]; cbn [app] in E; [injection E as _ _ _ <- <- _; unfold dist2; cbn [px py]; lra|].
  destruct pre as [|? pre]; cbn [app] in E; [discriminate|]. destruct pre; discriminate.
Qed.

Lemma dart_right : forall x y z, successive (ring_of dart_vertices) x y z -> cross x y z < 0.
Proof.
  apply succ_cases. intros i x y z X Y Z. unfold dart_vertices, ring_of in *; cbn [app] in *.
  destruct i as [|[|[|[|[|i]]]]]; cbn [Nat.add nth_error] in *; try discriminate;
    try (injection X as <-; injection Y as <-; injection Z as <-; unfold cross; cbn [px py]; lra).
  destruct i; discriminate.
Qed.

Lemma dart_returned : generateRandCell dart_draws (fun p => p) ring_area (549 / 625) 4 (/ 2) 1 0%nat = Ok (Some [ring_of dart_vertices], 8%nat).
Proof.
  destruct (rand_cell_area dart_draws (fun p => p) ring_area (549 / 625) 4 (/ 2) 1 0%nat id_area_zero) as (v & D & _ & H); [lia|lra|lra|].
  change (Z.to_nat 4) with 4%nat in *. apply dart_drawn in D. subst v. rewrite map_id, dart_size in H.
  destruct H as (s & r & Ps & Es & E & _ & _ & F & _); [lra|].
  assert (S1 : s = 1). { assert (X : (s - 1) * (s + 1) = 0) by lra. apply Rmult_integral in X. destruct X; lra. }
  assert (ER : r = ring_of dart_vertices).
  { clear - F S1. induction F as [|a b l l' M F IH]; [reflexivity|]. f_equal; [|exact IH].
    destruct M as [[(A & B & C) _]|[Q _]]; [|exact Q]. subst s. rewrite !Rmult_1_r in *. destruct a as [a1 a2 a3], b as [b1 b2 b3]. cbn [px py pz] in *. congruence. }
  rewrite E, ER. reflexivity.
Qed.

(** C274 is false: genConvexCell returns a dart, which turns right at three vertices and left
    at its first, and it returns a cell without defined coordinates when the three points it
    drew are on a line. *)
Theorem gen_convex_refuted :
  (exists u area v k, unit_values u /\ 0 < area /\
     (forall fuel, genConvexCell u (fun p => p) ring_area (S fuel) area 4 0%nat = Ok (Some [ring_of v], k)) /\
     (exists x y z, corner v x y z /\ 0 < cross x y z) /\ (exists x y z, corner v x y z /\ cross x y z < 0)) /\
  (exists u, unit_values u /\ forall area fuel, 0 < area ->
     genConvexCell u (fun p => p) ring_area (S fuel) area 3 0%nat = Ok (None, 6%nat)).
Proof.
  split.
  - exists dart_draws, (549 / 625), dart_vertices, 8%nat. split; [exact dart_unit|]. split; [lra|]. split; [|split].
    + intro fuel. unfold genConvexCell. change (size_to_int 4) with 4%Z. cbn [rand_until]. rewrite dart_returned. cbn [bind fst rand_isConvex].
      destruct (convex_test ring_area (ring_of dart_vertices)) as [b [E B]]; [rewrite dart_size; lra|cbn; lia|exact dart_moves|].
      rewrite E. cbn [bind]. replace b with true; [reflexivity|]. symmetry. apply B. right. intros x y z S. left. now apply dart_right.
    + do 3 eexists. split; [right; eexists; split; reflexivity|]. unfold dart_vertices, cross; cbn [last px py]; lra.
    + do 3 eexists. split; [left; exists []; eexists; reflexivity|]. unfold cross; cbn [px py]; lra.
  - destruct rand_cell_degenerate_refuted as (u & U & H). exists u. split; [exact U|]. intros area fuel A.
    unfold genConvexCell. change (size_to_int 3) with 3%Z. cbn [rand_until]. rewrite (H ring_area area id_area_zero A). reflexivity.
Qed.
Print Assumptions gen_convex_refuted.

(** C275: a triangle with an area is convex for the test. *)
Theorem triangle_convex : forall ga (a b c : pt), area_of_ring ga -> ring_area [[a; b; c; a]] <> 0 ->
  cell_isConvex ga [[a; b; c; a]] = Ok true.
Proof.
  intros ga a b c GA N.
  assert (S : shoelace a [a; b; c; a] = cross a b c) by (cbn [shoelace]; unfold cross; ring).
  assert (C : cross a b c <> 0). { intro E. apply N. unfold ring_area. rewrite S, E, Rabs_R0. lra. }
  assert (P : 0 < ga [[a; b; c; a]]). { rewrite GA. unfold ring_area. rewrite S. pose proof (Rabs_pos_lt _ C). lra. }
  assert (B2 : cross b c a = cross a b c) by (unfold cross; ring).
  assert (B3 : cross c a b = cross a b c) by (unfold cross; ring).
  assert (D : forall x y z : pt, cross x y z <> 0 -> 0 < dist2 x y).
  { intros x y z H. unfold dist2. destruct (Req_dec (px x) (px y)) as [E1|E1]; [destruct (Req_dec (py x) (py y)) as [E2|E2]|].
    - exfalso. apply H. unfold cross. rewrite E1, E2. ring.
    - assert (0 < (py x - py y) * (py x - py y)) by nra. pose proof (Rle_0_sqr (px x - px y)). unfold Rsqr in *. nra.
    - assert (0 < (px x - px y) * (px x - px y)) by nra. pose proof (Rle_0_sqr (py x - py y)). unfold Rsqr in *. nra. }
  apply (convex_accepts ga [a; b; c]); [exact P|cbn; lia| |].
  - intros pre x y post E. cbn [ring_of app] in E.
    destruct pre as [|? pre]; cbn [app] in E; [injection E as <- <- _; exact (D _ _ c C)|].
    destruct pre as [|? pre]; cbn [app] in E; [injection E as _ <- <- _; apply (D _ _ a); congruence|].
    destruct pre as [|? pre]; cbn [app] in E; [injection E as _ _ <- <- _; apply (D _ _ b); congruence|].
    destruct pre as [|? pre]; cbn [app] in E; [discriminate|]. destruct pre; discriminate.
  - assert (K : forall x y z, corner [a; b; c] x y z -> cross x y z = cross a b c).
    { intros x y z [(pre & post & E)|(m & E & F)].
      - cbn [ring_of app] in E. destruct pre as [|? pre]; cbn [app] in E; [injection E as <- <- <- _; reflexivity|].
        destruct pre as [|? pre]; cbn [app] in E; [injection E as _ <- <- <- _; exact B2|].
        destruct pre as [|? pre]; cbn [app] in E; [discriminate|]. destruct pre as [|? pre]; cbn [app] in E; [discriminate|]. destruct pre; discriminate.
      - injection E as <- <- _. cbn [last] in F. subst x. exact B3. }
    destruct (Rtotal_order (cross a b c) 0) as [H|[H|H]]; [right|contradiction|left]; intros x y z Q; rewrite (K _ _ _ Q); exact H.
Qed.
Print Assumptions triangle_convex.

(** C275: genConvexCell with three sides returns the first triangle drawn unless it has no
    area after scaling. *)
Theorem gen_triangle : forall u wkt ga area fuel k c k', area_of_ring ga ->
  generateRandCell u wkt ga area 3 (/ 2) 1 k = Ok (c, k') -> (forall x, c = Some x -> ring_area x <> 0) ->
  genConvexCell u wkt ga (S fuel) area 3 k = Ok (c, k').
Proof.
  intros u wkt ga area fuel k c k' GA E N. unfold genConvexCell. change (size_to_int 3) with 3%Z. cbn [rand_until]. rewrite E. cbn [bind fst].
  destruct c as [x|]; [|reflexivity]. cbn [rand_isConvex].
  destruct (rand_cell_result _ _ _ _ _ _ _ _ _ _ E) as (_ & A & _).
  destruct (rand_cell_area u wkt ga area 3 (/ 2) 1 k GA) as (v & _ & H0 & H); [lia|exact A|lra|].
  destruct (Req_dec (ring_area [map wkt (ring_of v)]) 0) as [Z|Z]; [rewrite (H0 Z) in E; discriminate|].
  destruct (H Z) as (s & r & _ & _ & E' & L & C & _). rewrite E in E'. injection E' as -> _.
  change (Z.to_nat 3) with 3%nat in L.
  destruct r as [|a [|b [|d [|e [|]]]]]; try discriminate L.
  assert (e = a) as ->.
  { destruct C as [C|(p & m & [C|C])]; try discriminate C. injection C as -> C. destruct m as [|m1 [|m2 [|m3 [|]]]]; try discriminate C. cbn in C. congruence. }
  rewrite (triangle_convex ga a b d GA); [reflexivity|]. apply N. reflexivity.
Qed.
Print Assumptions gen_triangle.

Example gen_triangle_ex : exists r, ring_area [r] = 3 /\ generateRandCell (fun _ => 0) (fun p => p) ring_area 3 3 (/ 2) 1 0%nat = Ok (Some [r], 6%nat) /\
  genConvexCell (fun _ => 0) (fun p => p) ring_area 1 3 3 0%nat = Ok (Some [r], 6%nat).
Proof.
  destruct (rand_cell_area (fun _ => 0) (fun p => p) ring_area 3 3 (/ 2) 1 0%nat id_area_zero) as (v & (L & D) & _ & H); [lia|lra|lra|].
  change (Z.to_nat 3) with 3%nat in *. destruct v as [|p0 [|p1 [|p2 [|]]]]; try discriminate L.
  assert (A : forall i p, nth_error [p0; p1; p2] i = Some p -> px p = / 2 * sin (INR i * (2 * (PI / 3))) /\ py p = / 2 * cos (INR i * (2 * (PI / 3)))).
  { intros i p Hp. destruct (D i p Hp) as (r & a & -> & -> & -> & -> & _).
    replace ((INR i + 0) * (2 * PI / INR 3)) with (INR i * (2 * (PI / 3))) by (simpl INR; field).
    replace (/ 2 + 0 * (1 - / 2)) with (/ 2) by field. split; reflexivity. }
  pose proof sqrt3_bounds as S3. assert (Q3 : sqrt 3 * sqrt 3 = 3) by (apply sqrt_sqrt; lra).
  assert (P0 : px p0 = 0 /\ py p0 = / 2). { destruct (A 0%nat p0 eq_refl) as [-> ->]. simpl INR. rewrite Rmult_0_l, sin_0, cos_0. lra. }
  assert (P1 : px p1 = sqrt 3 / 4 /\ py p1 = - / 4). { destruct (A 1%nat p1 eq_refl) as [-> ->]. simpl INR. rewrite Rmult_1_l, sin_2PI3, cos_2PI3. lra. }
  assert (P2 : px p2 = - (sqrt 3 / 4) /\ py p2 = - / 4).
  { destruct (A 2%nat p2 eq_refl) as [-> ->]. replace (INR 2 * (2 * (PI / 3))) with (- (2 * (PI / 3)) + 2 * INR 1 * PI) by (simpl INR; field).
    rewrite sin_period, cos_period, sin_neg, cos_neg, sin_2PI3, cos_2PI3. lra. }
  assert (Z : forall p, In p [p0; p1; p2] -> pz p = 0).
  { intros p Hp. apply In_nth_error in Hp. destruct Hp as [i Hi]. destruct (D i p Hi) as (r & a & _ & _ & _ & _ & E). exact E. }
  rewrite map_id in H. cbn [ring_of app] in H.
  assert (RA : ring_area [[p0; p1; p2; p0]] = 3 * sqrt 3 / 16).
  { unfold ring_area. cbn [shoelace]. destruct P0 as [-> ->], P1 as [-> ->], P2 as [-> ->]. rewrite Rabs_left; lra. }
  destruct H as (s & r & Ps & Es & E & _ & _ & F & G & _); [lra|]. rewrite RA in Es.
  assert (Hs : 3 < s) by nra.
  assert (HR : ring_area [r] = 3).
  { apply G. intros p q Hp (Q1 & Q2 & Q3') (C1 & C2 & _). rewrite Q2 in C2.
    assert (B : / 4 <= Rabs (py p)).
    { destruct Hp as [<-|[<-|[<-|[<-|[]]]]]; destruct P0 as [_ b0], P1 as [_ b1], P2 as [_ b2]; rewrite ?b0, ?b1, ?b2; unfold Rabs; destruct (Rcase_abs _); lra. }
    replace (py p - py p * s) with (py p * - (s - 1)) in C2 by ring. rewrite Rabs_mult, Rabs_Ropp, (Rabs_right (s - 1)) in C2 by lra. nra. }
  exists r. split; [exact HR|]. split; [exact E|]. apply gen_triangle; [exact id_area_zero|exact E|].
  intros x X. injection X as <-. rewrite HR. lra.
Qed.
