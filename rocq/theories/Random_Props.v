(** Theorems about random cells (properties C77, C185-C188). *)
From Coq Require Import List Arith ZArith Lia Bool Reals Lra Psatz.
From Verif Require Import Outcome Num ListAux Point_Model Angle_Model Angle_Spec Angle_Proofs Container_Model Container_Spec Container_Proofs
  Container_Props SwathGen_Model Border_Model Border_Spec Text_Model Text_Spec Text_Proofs Field_Model Field_Spec Field_Proofs Field_Props
  Transform_Model Random_Model Random_Spec Random_Proofs.
Import ListNotations.
Open Scope R_scope.

(** The library's area of a cell with one ring is that of the shoelace formula. *)
Definition area_of_ring (get_area : list (list pt) -> R) : Prop := forall r, get_area [r] = ring_area [r].

(** C77: wrong requests. *)
Theorem rand_cell_refuses : forall u wkt ga area n lo hi k, (n < 3)%Z \/ area <= 0 ->
  generateRandCell u wkt ga area n lo hi k = Throw InvalidArgument.
Proof.
  intros u wkt ga area n lo hi k H. unfold generateRandCell. destruct (Z.leb_spec n 2); [reflexivity|].
  destruct H as [H|H]; [lia|]. unfold Rleb. destruct (Rle_dec area 0); [reflexivity|lra].
Qed.
Print Assumptions rand_cell_refuses.

Example rand_cell_refuses_ex : generateRandCell (fun _ => 0) (fun p => p) ring_area 1 2 (/ 2) 1 0%nat = Throw InvalidArgument.
Proof. apply rand_cell_refuses. left. lia. Qed.

(** C77: a cell is drawn, stored through the text round trip, and scaled by the factor
    that gives the requested area; vertices that would move by less than 1e-7 in each
    coordinate stay where they are, so that the area is exact if there are none of
    them, and otherwise off by a bounded amount. *)
Theorem rand_cell_area : forall u wkt ga area n lo hi k, area_of_ring ga -> (3 <= n)%Z -> 0 < area -> lo < hi ->
  exists v, drawn u k (Z.to_nat n) lo hi v /\
  let w := map wkt (ring_of v) in
  (ring_area [w] = 0 -> generateRandCell u wkt ga area n lo hi k = Ok (None, (k + 2 * Z.to_nat n)%nat)) /\
  (ring_area [w] <> 0 -> exists s r, 0 < s /\ s * s * ring_area [w] = area /\
     generateRandCell u wkt ga area n lo hi k = Ok (Some [r], (k + 2 * Z.to_nat n)%nat) /\
     length r = S (Z.to_nat n) /\ closed r /\ Forall2 (moved_unless_close (scaled s)) w r /\
     ((forall p q, In p w -> scaled s p q -> ~ close p q) -> ring_area [r] = area) /\
     (forall M, (forall p, In p w -> Rabs (px p * s) <= M /\ Rabs (py p * s) <= M) ->
        Rabs (ring_area [r] - area) <= (IZR n + 1) * (2 * M / 10000000 + / 100000000000000))).
Proof.
  intros u wkt ga area n lo hi k GA Hn Ha Hw. exists (map (drawn_point u k n lo hi) (seq 0 (Z.to_nat n))).
  split; [apply drawn_ok; lia|]. set (v := map (drawn_point u k n lo hi) _). cbv zeta.
  assert (Lv : length v = Z.to_nat n) by (unfold v; rewrite map_length, seq_length; reflexivity).
  assert (Ev : map (drawn_point u k n lo hi) (seq 0 (Z.to_nat n)) = v) by reflexivity. clearbody v. destruct v as [|f m]; [cbn in Lv; lia|]. cbn [ring_of]. set (w := map wkt ((f :: m) ++ [f])).
  assert (Ew : w = wkt f :: map wkt m ++ [wkt f]) by (unfold w; rewrite map_app; reflexivity).
  assert (Cw : closed w) by (right; exists (wkt f), (map wkt m); left; exact Ew).
  assert (Lw : length w = S (Z.to_nat n)) by (unfold w; rewrite map_length, app_length, Lv; simpl; lia).
  assert (G : generateRandCell u wkt ga area n lo hi k =
    if Req_EM_T (ring_area [w]) 0 then Ok (None, (k + 2 * Z.to_nat n)%nat)
    else do c <- cell_scale RNum (R_sqrt.sqrt (area / ring_area [w])) [w]; Ok (Some c, (k + 2 * Z.to_nat n)%nat)).
  { unfold generateRandCell. destruct (Z.leb_spec n 2); [lia|]. unfold Rleb. destruct (Rle_dec area 0); [lra|].
    rewrite border_ok by exact Hw. cbn [bind fst snd]. rewrite Ev. unfold line_getGeometry, vec_at. cbn [nth_error bind].
    unfold cell_addRing, line_clone. cbn [app]. change (f :: m ++ [f]) with ((f :: m) ++ [f]). fold w. rewrite (closeRing_closed w Cw), !GA. reflexivity. }
  rewrite G. split; [intro E; destruct (Req_EM_T (ring_area [w]) 0); [reflexivity|congruence]|].
  intro NE. destruct (Req_EM_T (ring_area [w]) 0) as [|_]; [congruence|]. rewrite cell_scale_map. cbn [map bind].
  assert (P : 0 < ring_area [w]).
  { assert (0 <= ring_area [w]); [|lra]. unfold ring_area. rewrite Ew. pose proof (Rabs_pos (shoelace (wkt f) (wkt f :: map wkt m ++ [wkt f]))). lra. }
  set (s := R_sqrt.sqrt (area / ring_area [w])).
  assert (Ps : 0 < s) by (apply sqrt_lt_R0; apply Rmult_lt_0_compat; [lra|apply Rinv_0_lt_compat; lra]).
  assert (Es : s * s * ring_area [w] = area).
  { unfold s. rewrite sqrt_sqrt; [field; lra|]. apply Rlt_le, Rmult_lt_0_compat; [lra|apply Rinv_0_lt_compat; lra]. }
  set (b := back RNum (fun p => p_scale RNum p s)).
  assert (B : forall p, moved_unless_close (scaled s) p (b p)) by (intro p; apply back_image; repeat split; reflexivity).
  assert (FB : Forall2 (moved_unless_close (scaled s)) w (map b w)) by (apply map_Forall2; intros; apply B).
  set (sc := fun p : pt => mkPoint (N := RNum) (px p * s) (py p * s) (pz p * s)).
  assert (SC : forall p, scaled s p (sc p)) by (intro p; repeat split).
  assert (SA : Rabs (shoelace (sc (wkt f)) (map sc w)) / 2 = area).
  { rewrite (shoelace_scale s (wkt f) _ w); [|apply SC|apply map_Forall2; intros; apply SC].
    transitivity (s * s * ring_area [w]); [|exact Es]. clearbody s. rewrite Ew. unfold ring_area. rewrite Rabs_mult, (Rabs_right (s * s)) by nra. field. }
  assert (RA : ring_area [map b w] = Rabs (shoelace (b (wkt f)) (map b w)) / 2) by (rewrite Ew; reflexivity).
  exists s, (map b w). split; [exact Ps|]. split; [exact Es|]. split; [reflexivity|]. split; [rewrite map_length; exact Lw|]. split.
  { right. exists (b (wkt f)), (map b (map wkt m)). left. rewrite Ew. cbn [map]. rewrite map_app. reflexivity. }
  split; [exact FB|]. split.
  - intro NC. assert (E : forall p, In p w -> b p = sc p).
    { intros p Hp. destruct (B p) as [[(E1 & E2 & E3) _]|[_ (q & Q & C)]]; [|exfalso; exact (NC p q Hp Q C)].
      destruct (b p) as [x y z]. cbn [px py pz] in E1, E2, E3. unfold sc. rewrite E1, E2, E3. reflexivity. }
    rewrite RA. rewrite (map_ext_in _ _ w E). rewrite E by (rewrite Ew; left; reflexivity). exact SA.
  - intros M HM. set (d := / 10000000).
    assert (ND : forall p, near d (sc p) (b p)).
    { intro p. unfold near. destruct (B p) as [[(E1 & E2 & _) _]|[E (q & (Q1 & Q2 & _) & (C1 & C2 & _))]]; unfold sc; cbn [px py].
      - rewrite E1, E2, !Rminus_diag_eq by reflexivity. rewrite Rabs_R0. unfold d. lra.
      - rewrite E. rewrite Q1 in C1. rewrite Q2 in C2. unfold d. lra. }
    assert (D : Rabs (shoelace (b (wkt f)) (map b w) - shoelace (sc (wkt f)) (map sc w)) <= INR (length (map sc w)) * (4 * M * d + 2 * (d * d))).
    { apply shoelace_near; [unfold d; lra|apply ND| | | |].
      - apply (HM (wkt f)). rewrite Ew. left; reflexivity.
      - apply (HM (wkt f)). rewrite Ew. left; reflexivity.
      - clear - ND. clearbody b sc d. generalize w. intro w0. induction w0; cbn; constructor; auto.
      - intros p Hp. apply in_map_iff in Hp. destruct Hp as (q & <- & Hq). apply HM. exact Hq. }
    rewrite map_length, Lw, S_INR, INR_IZR_INZ, Z2Nat.id in D by lia. rewrite RA, <- SA.
    set (X := shoelace (b (wkt f)) (map b w)) in *. set (Y := shoelace (sc (wkt f)) (map sc w)) in *.
    pose proof (Rabs_triang_inv2 X Y) as T.
    replace (Rabs X / 2 - Rabs Y / 2) with ((Rabs X - Rabs Y) / 2) by field.
    unfold Rdiv at 1. rewrite Rabs_mult, (Rabs_right (/ 2)) by lra. unfold d in D.
    assert (Q : (IZR n + 1) * (4 * M * / 10000000 + 2 * (/ 10000000 * / 10000000)) * / 2 = (IZR n + 1) * (2 * M / 10000000 + / 100000000000000)) by field.
    lra.
Qed.
Print Assumptions rand_cell_area.

Lemma id_area_zero : area_of_ring ring_area.
Proof. intro r. reflexivity. Qed.
Example rand_cell_area_ex : area_of_ring ring_area /\ (3 <= 4)%Z /\ 0 < 100 /\ / 2 < 1.
Proof. split; [exact id_area_zero|]. split; [lia|]. lra. Qed.

(** C185: with four sides or more, positive widths, and without rounding in the text
    round trip, the drawn polygon always goes round clockwise and has an area, so that
    a cell comes back. *)
Theorem rand_cell_proper : forall u ga area n lo hi k, area_of_ring ga -> unit_values u -> (4 <= n)%Z -> 0 < area -> 0 < lo < hi ->
  exists f l r, drawn u k (Z.to_nat n) lo hi (f :: l) /\ shoelace f (f :: l) < 0 /\
    generateRandCell u (fun p => p) ga area n lo hi k = Ok (Some [r], (k + 2 * Z.to_nat n)%nat).
Proof.
  intros u ga area n lo hi k GA U Hn Ha Hw. destruct (rand_cell_area u (fun p => p) ga area n lo hi k GA) as (v & D & _ & H); try lia; try lra.
  destruct v as [|f l]; [destruct D as [D _]; cbn in D; lia|].
  assert (S : shoelace f (f :: l) < 0) by (apply (drawn_clockwise u k (Z.to_nat n) lo hi); auto; lia).
  destruct H as (s & r & _ & _ & E & _).
  - rewrite map_id. cbn [ring_of]. unfold ring_area. cbn [app]. change (f :: l ++ [f]) with ((f :: l) ++ [f]). rewrite shoelace_close by discriminate.
    rewrite Rabs_left by exact S. lra.
  - exists f, l, r. auto.
Qed.
Print Assumptions rand_cell_proper.

Example rand_cell_proper_ex : unit_values (fun k => / 3) /\ (4 <= 9)%Z /\ 0 < / 2 < 1.
Proof. split; [intro k; lra|]. split; [lia|lra]. Qed.

(** C77 is false in exact terms: vertices that would move by less than 1e-7 stay, and
    here all of them do, so that the cell does not get the requested area. *)
Definition square_request : R := / 2 * ((1 + / 100000000) * (1 + / 100000000)).
Theorem rand_cell_area_refuted : exists u, unit_values u /\ exists r k,
  generateRandCell u (fun p => p) ring_area square_request 4 (/ 2) 1 0%nat = Ok (Some [r], k) /\ ring_area [r] = / 2 /\ / 2 < square_request.
Proof.
  exists (fun _ => 0). split; [intro; lra|].
  assert (SQ : / 2 < square_request) by (unfold square_request; lra).
  destruct (rand_cell_area (fun _ => 0) (fun p => p) ring_area square_request 4 (/ 2) 1 0%nat id_area_zero) as (v & (L & D) & _ & H); [lia|lra|lra|].
  change (Z.to_nat 4) with 4%nat in *. destruct v as [|p0 [|p1 [|p2 [|p3 [|]]]]]; try discriminate L.
  assert (A : forall i p, nth_error [p0; p1; p2; p3] i = Some p -> px p = / 2 * sin (INR i * (PI / 2)) /\ py p = / 2 * cos (INR i * (PI / 2))).
  { intros i p Hp. destruct (D i p Hp) as (r & a & -> & -> & -> & -> & _).
    replace ((INR i + 0) * (2 * PI / INR 4)) with (INR i * (PI / 2)) by (simpl INR; field).
    replace (/ 2 + 0 * (1 - / 2)) with (/ 2) by field. split; reflexivity. }
  assert (P0 : px p0 = 0 /\ py p0 = / 2). { destruct (A 0%nat p0 eq_refl) as [-> ->]. simpl INR. rewrite Rmult_0_l, sin_0, cos_0. lra. }
  assert (P1 : px p1 = / 2 /\ py p1 = 0). { destruct (A 1%nat p1 eq_refl) as [-> ->]. simpl INR. rewrite Rmult_1_l, sin_PI2, cos_PI2. lra. }
  assert (P2 : px p2 = 0 /\ py p2 = - / 2). { destruct (A 2%nat p2 eq_refl) as [-> ->]. replace (INR 2 * (PI / 2)) with PI by (simpl INR; field). rewrite sin_PI, cos_PI. lra. }
  assert (P3 : px p3 = - / 2 /\ py p3 = 0). { destruct (A 3%nat p3 eq_refl) as [-> ->]. replace (INR 3 * (PI / 2)) with (3 * (PI / 2)) by (simpl INR; field). rewrite sin_3PI2, cos_3PI2. lra. }
  assert (Z : forall p, In p [p0; p1; p2; p3] -> pz p = 0).
  { intros p Hp. apply In_nth_error in Hp. destruct Hp as [i Hi]. destruct (D i p Hi) as (r & a & _ & _ & _ & _ & E). exact E. }
  rewrite map_id in H. cbn [ring_of app] in H.
  assert (RA : ring_area [[p0; p1; p2; p3; p0]] = / 2).
  { unfold ring_area. cbn [shoelace]. destruct P0 as [-> ->], P1 as [-> ->], P2 as [-> ->], P3 as [-> ->]. rewrite Rabs_left; lra. }
  destruct H as (s & r & Ps & Es & E & _ & _ & F & _); [intro X; lra|].
  rewrite RA in Es. unfold square_request in Es.
  assert (S1 : s = 1 + / 100000000).
  { assert (X : (s - (1 + / 100000000)) * (s + (1 + / 100000000)) = 0) by lra. apply Rmult_integral in X. destruct X; lra. }
  assert (ER : r = [p0; p1; p2; p3; p0]).
  { assert (C : forall p q, In p [p0; p1; p2; p3; p0] -> moved_unless_close (scaled s) p q -> q = p).
    { intros p q Hp [[(Q1 & Q2 & Q3) N]|[Q _]]; [|exact Q]. exfalso. apply N. unfold close. rewrite Q1, Q2, Q3.
      assert (B : Rabs (px p) <= / 2 /\ Rabs (py p) <= / 2 /\ pz p = 0).
      { destruct Hp as [<-|[<-|[<-|[<-|[<-|[]]]]]];
          (split; [|split; [|apply Z; simpl; tauto]]); destruct P0 as [a0 b0], P1 as [a1 b1], P2 as [a2 b2], P3 as [a3 b3];
          rewrite ?a0, ?b0, ?a1, ?b1, ?a2, ?b2, ?a3, ?b3; apply Rabs_le; lra. }
      destruct B as (B1 & B2 & B3). rewrite B3, S1.
      assert (X : forall x, Rabs x <= / 2 -> Rabs (x - x * (1 + / 100000000)) < / 10000000).
      { intros x Hx. replace (x - x * (1 + / 100000000)) with (x * - / 100000000) by ring. rewrite Rabs_mult, Rabs_Ropp, (Rabs_right (/ 100000000)) by lra. lra. }
      split; [apply X; exact B1|]. split; [apply X; exact B2|]. rewrite Rmult_0_l, Rminus_0_r, Rabs_R0. lra. }
    clear - F C. revert C. induction F as [|a b l l' M F IH]; intro C; [reflexivity|]. f_equal.
    - apply C; [left; reflexivity|exact M].
    - apply IH. intros p q Hp. apply C. right; exact Hp. }
  exists r. eexists. split; [exact E|]. rewrite ER. split; [exact RA|exact SQ].
Qed.
Print Assumptions rand_cell_area_refuted.

(** C185 fails for three sides: with the default widths three points on a line can be drawn,
    and the division by the area 0 gives infinite or undefined coordinates. *)
Definition line_radius : R := 3 * sqrt 3 / (4 * / sqrt 2 * (4 - sqrt 3)).
Definition line_draws (k : nat) : R := match k with 0%nat => / 2 | 1%nat => 0 | 2%nat => 2 * line_radius - 1 | 3%nat => 7 / 8 | _ => 0 end.

Lemma sqrt2_bounds : 14 / 10 < sqrt 2 < 15 / 10.
Proof.
  assert (H : sqrt 2 * sqrt 2 = 2) by (apply sqrt_sqrt; lra). pose proof (sqrt_pos 2). split; nra.
Qed.
Lemma sqrt3_bounds : 17 / 10 < sqrt 3 < 18 / 10.
Proof.
  assert (H : sqrt 3 * sqrt 3 = 3) by (apply sqrt_sqrt; lra). pose proof (sqrt_pos 3). split; nra.
Qed.
Lemma line_radius_bounds : / 2 <= line_radius < 1.
Proof.
  pose proof sqrt2_bounds. pose proof sqrt3_bounds. unfold line_radius.
  replace (3 * sqrt 3 / (4 * / sqrt 2 * (4 - sqrt 3))) with (3 * sqrt 3 * sqrt 2 / (4 * (4 - sqrt 3))) by (field; lra).
  assert (0 < 4 * (4 - sqrt 3)) by lra. split.
  - apply (Rmult_le_reg_r (4 * (4 - sqrt 3))); [lra|]. unfold Rdiv. rewrite Rmult_assoc, Rinv_l by lra. nra.
  - apply (Rmult_lt_reg_r (4 * (4 - sqrt 3))); [lra|]. unfold Rdiv. rewrite Rmult_assoc, Rinv_l by lra. nra.
Qed.

Theorem rand_cell_degenerate_refuted : exists u, unit_values u /\ forall ga area, area_of_ring ga -> 0 < area ->
  generateRandCell u (fun p => p) ga area 3 (/ 2) 1 0%nat = Ok (None, 6%nat).
Proof.
  exists line_draws. pose proof line_radius_bounds as LB. split.
  { intro k. unfold line_draws. destruct k as [|[|[|[|k]]]]; lra. }
  intros ga area GA Ha. destruct (rand_cell_area line_draws (fun p => p) ga area 3 (/ 2) 1 0%nat GA) as (v & (L & D) & H & _); [lia|lra|lra|].
  apply H. clear H. change (Z.to_nat 3) with 3%nat in *. destruct v as [|p0 [|p1 [|p2 [|]]]]; try discriminate L.
  destruct (D 0%nat p0 eq_refl) as (r0 & a0 & R0 & A0 & X0 & Y0 & _). destruct (D 1%nat p1 eq_refl) as (r1 & a1 & R1 & A1 & X1 & Y1 & _).
  destruct (D 2%nat p2 eq_refl) as (r2 & a2 & R2 & A2 & X2 & Y2 & _). cbn [plus Nat.mul line_draws] in *.
  replace a0 with 0 in * by (rewrite A0; simpl INR; field). replace a1 with (PI / 4 + PI) in * by (rewrite A1; simpl INR; field).
  replace a2 with (PI / 3 + PI) in * by (rewrite A2; simpl INR; field).
  rewrite neg_sin, sin_PI4 in X1. rewrite neg_cos, cos_PI4 in Y1. rewrite neg_sin, sin_PI3 in X2. rewrite neg_cos, cos_PI3 in Y2.
  rewrite sin_0 in X0. rewrite cos_0 in Y0. rewrite map_id. cbn [ring_of app]. unfold ring_area. cbn [shoelace].
  rewrite X0, Y0, X1, Y1, X2, Y2. replace r1 with line_radius by (rewrite R1; field). replace r0 with (3 / 4) by (rewrite R0; field). replace r2 with (/ 2) by (rewrite R2; field).
  match goal with |- Rabs ?x / 2 = 0 => replace x with 0; [rewrite Rabs_R0; lra|] end.
  pose proof sqrt2_bounds. pose proof sqrt3_bounds. assert (S3 : sqrt 3 * sqrt 3 = 3) by (apply sqrt_sqrt; lra).
  unfold line_radius. field_simplify_eq; [|lra]. nra.
Qed.
Print Assumptions rand_cell_degenerate_refuted.

Lemma rand_cell_result u wkt ga area n lo hi k c k' : generateRandCell u wkt ga area n lo hi k = Ok (c, k') -> (3 <= n)%Z /\ 0 < area /\ lo < hi.
Proof.
  unfold generateRandCell. destruct (Z.leb_spec n 2) as [|Hn]; [discriminate|]. unfold Rleb. destruct (Rle_dec area 0) as [|Ha]; [discriminate|].
  intro H. split; [lia|]. split; [lra|]. destruct (Rlt_dec lo hi) as [|W]; [assumption|exfalso].
  unfold rand_border in H. replace (Z.to_nat n) with (S (Z.to_nat (n - 1))) in H by lia. cbn [seq foldM] in H.
  unfold rand_point at 1 in H. cbn [snd] in H. unfold getRandomLinear at 1 in H. unfold Rltb at 1 in H. destruct (Rlt_dec lo hi); [contradiction|discriminate H].
Qed.

(** C186: what genConvexCell and genNonConvexCell return was drawn by generateRandCell with
    the default widths and passed (failed) the convexity test, which cells with undefined
    coordinates pass; with n_sides not above 2 they throw. *)
Theorem gen_convex : forall u wkt ga fuel area n k, (0 <= n < 2 ^ 31)%Z ->
  (forall c k', genConvexCell u wkt ga fuel area n k = Ok (c, k') -> exists j, (forall x, c = Some x -> cell_isConvex ga x = Ok true) /\
     k' = (k + 2 * Z.to_nat n * S j)%nat /\ generateRandCell u wkt ga area n (/ 2) 1 (k + 2 * Z.to_nat n * j)%nat = Ok (c, k')) /\
  (forall c k', genNonConvexCell u wkt ga fuel area k = Ok (c, k') -> exists x j, c = Some x /\ cell_isConvex ga x = Ok false /\
     k' = (k + 18 * S j)%nat /\ generateRandCell u wkt ga area 9 (/ 2) 1 (k + 18 * j)%nat = Ok (Some x, k')) /\
  ((n < 3)%Z \/ area <= 0 -> genConvexCell u wkt ga (S fuel) area n k = Throw InvalidArgument) /\
  (area <= 0 -> genNonConvexCell u wkt ga (S fuel) area k = Throw InvalidArgument).
Proof.
  intros u wkt ga fuel area n k Hn.
  assert (SI : size_to_int n = n) by (unfold size_to_int; rewrite Z.mod_small by lia; lia).
  assert (ST : forall m c q q', generateRandCell u wkt ga area m (/ 2) 1 q = Ok (c, q') -> q' = (q + 2 * Z.to_nat m)%nat).
  { intros m c q q' E. unfold generateRandCell in E. destruct (Z.leb m 2); [discriminate|]. destruct (Rleb area 0); [discriminate|].
    rewrite border_ok in E by lra. cbn [bind fst snd] in E. destruct (line_getGeometry RNum _ 0) as [p| | |]; try discriminate E. cbn [bind] in E.
    destruct (Req_EM_T _ 0); [injection E as _ <-; reflexivity|]. rewrite cell_scale_map in E. injection E as _ <-. reflexivity. }
  assert (G : forall want m fuel q c k', rand_until u wkt ga fuel want area m q = Ok (c, k') -> exists j,
    rand_isConvex ga c = Ok want /\ k' = (q + 2 * Z.to_nat m * S j)%nat /\ generateRandCell u wkt ga area m (/ 2) 1 (q + 2 * Z.to_nat m * j)%nat = Ok (c, k')).
  { intros want m f. induction f as [|f IH]; intros q c k' E; [discriminate E|]. cbn [rand_until] in E.
    destruct (generateRandCell u wkt ga area m (/ 2) 1 q) as [[c0 q0]| | |] eqn:E0; try discriminate E. cbn [bind fst snd] in E.
    pose proof (ST _ _ _ _ E0) as Q. destruct (rand_isConvex ga c0) as [x| | |] eqn:EX; try discriminate E. cbn [bind] in E.
    destruct (Bool.eqb x want) eqn:EB.
    - apply Bool.eqb_prop in EB. subst x. injection E as -> <-. exists 0%nat. split; [exact EX|]. split; [rewrite Q; lia|].
      rewrite Nat.mul_0_r, Nat.add_0_r. exact E0.
    - destruct (IH _ _ _ E) as (j & A & B & C). exists (S j). split; [exact A|]. split; [rewrite B, Q; lia|].
      rewrite Q in C. replace (q + 2 * Z.to_nat m * S j)%nat with (q + 2 * Z.to_nat m + 2 * Z.to_nat m * j)%nat by lia. exact C. }
  split; [|split; [|split]].
  - intros c k' E. unfold genConvexCell in E. rewrite SI in E. destruct (G _ _ _ _ _ _ E) as (j & A & B & C).
    exists j. split; [intros x ->; exact A|]. auto.
  - intros c k' E. unfold genNonConvexCell in E. destruct (G _ _ _ _ _ _ E) as (j & A & B & C).
    destruct c as [x|]; [|discriminate A]. exists x, j. split; [reflexivity|]. split; [exact A|]. split; [exact B|exact C].
  - intro H. unfold genConvexCell. rewrite SI. cbn [rand_until]. rewrite (rand_cell_refuses u wkt ga area n (/ 2) 1 k H). reflexivity.
  - intro H. unfold genNonConvexCell. cbn [rand_until]. rewrite (rand_cell_refuses u wkt ga area 9 (/ 2) 1 k (or_intror H)). reflexivity.
Qed.
Print Assumptions gen_convex.

Example gen_convex_ex : genConvexCell (fun _ => 0) (fun p => p) ring_area 1 (-5) 4 0%nat = Throw InvalidArgument.
Proof. apply (gen_convex (fun _ => 0) (fun p => p) ring_area 0 (-5) 4 0%nat); [lia|]. right. lra. Qed.

(** C186: only the last 32 bits of the number of sides are looked at.  Whatever multiple of
    2^32 is added, the cells are those of the number below 2^31 that is left, and the numbers
    from 2^31 are refused. *)
Theorem gen_convex_large : forall u wkt ga fuel area m q k, (0 <= m < 2 ^ 32)%Z ->
  ((m < 2 ^ 31)%Z -> genConvexCell u wkt ga fuel area (4294967296 * q + m) k = genConvexCell u wkt ga fuel area m k) /\
  ((2 ^ 31 <= m)%Z -> genConvexCell u wkt ga (S fuel) area (4294967296 * q + m) k = Throw InvalidArgument).
Proof.
  intros u wkt ga fuel area m q k Hm.
  assert (M : ((4294967296 * q + m + 2 ^ 31) mod 2 ^ 32 = (m + 2 ^ 31) mod 2 ^ 32)%Z).
  { replace (4294967296 * q + m + 2 ^ 31)%Z with (m + 2 ^ 31 + q * 2 ^ 32)%Z by lia. apply Z_mod_plus_full. }
  unfold genConvexCell, size_to_int. rewrite M. split; [reflexivity|].
  intro H. replace ((m + 2 ^ 31) mod 2 ^ 32)%Z with (m - 2 ^ 31)%Z.
  - cbn [rand_until]. rewrite (rand_cell_refuses u wkt ga area (m - 2 ^ 31 - 2 ^ 31)%Z (/ 2) 1 k); [reflexivity|]. left. lia.
  - symmetry. replace (m + 2 ^ 31)%Z with (m - 2 ^ 31 + 1 * 2 ^ 32)%Z by lia. rewrite Z_mod_plus_full. apply Z.mod_small. lia.
Qed.
Print Assumptions gen_convex_large.

(** 2^32 + 3 sides are three sides, 2^31 sides are refused. *)
Example gen_convex_large_ex : (0 <= 3 < 2 ^ 31)%Z /\ (4294967296 * 1 + 3 = 4294967299)%Z /\ (2 ^ 31 <= 2147483648 < 2 ^ 32)%Z.
Proof. lia. Qed.

(** C187: the ranges of the numbers drawn. *)
Theorem random_ranges : forall u k, unit_values u ->
  (forall lo hi, lo < hi -> exists x, getRandomLinear u lo hi k = Ok (x, S k) /\ lo <= x < hi) /\
  (exists x, getRandomDouble u k = Ok (x, S k) /\ 0 <= x < 1) /\
  (exists x, getAngleRandom u k = Ok (x, S k) /\ 0 <= x < 2 * PI) /\
  (forall lo hi, 0 < lo < hi -> exists x, getRandomExp u lo hi k = Ok (x, S k) /\ lo <= x < hi) /\
  (forall lambda, 0 < lambda -> exists x, getRandomExpDist u lambda k = Ok (x, S k) /\ 0 <= x).
Proof.
  intros u k U. pose proof (U k) as Uk.
  assert (LI : forall lo hi, lo < hi -> exists x, getRandomLinear u lo hi k = Ok (x, S k) /\ lo <= x < hi).
  { intros lo hi H. rewrite linear_ok by exact H. eexists. split; [reflexivity|]. nra. }
  split; [exact LI|]. split; [apply LI; lra|]. split; [apply LI; pose proof PI_RGT_0; lra|]. split.
  - intros lo hi H. unfold getRandomExp. rewrite Rltb_true' by lra. unfold getRandomDouble. rewrite linear_ok by lra. cbn [bind fst snd].
    eexists. split; [reflexivity|]. assert (ln lo < ln hi) by (apply ln_increasing; lra). set (y := (ln hi - ln lo) * (u k * (1 - 0) + 0) + ln lo).
    assert (Y : ln lo <= y < ln hi) by (unfold y; nra). split.
    + rewrite <- (exp_ln lo) by lra. destruct Y as [[Y|Y] _]; [left; apply exp_increasing; exact Y|rewrite Y; lra].
    + rewrite <- (exp_ln hi) by lra. apply exp_increasing. lra.
  - intros lambda H. unfold getRandomExpDist. eexists. split; [reflexivity|]. apply Rmult_le_pos; [|apply Rlt_le, Rinv_0_lt_compat; exact H].
    assert (ln (1 - u k) <= 0); [|lra]. destruct (proj1 Uk) as [P|P].
    + rewrite <- ln_1. left. apply ln_increasing; lra.
    + rewrite <- P, Rminus_0_r, ln_1. lra.
Qed.
Print Assumptions random_ranges.

Example random_ranges_ex : unit_values (fun k => match k with 0%nat => 0 | _ => / 2 end) /\ 0 < 1 < 10.
Proof. split; [intros [|k]; lra|lra]. Qed.

(** An empty range stops the program (a failed assertion), whatever the generator gives. *)
Theorem random_empty_range : forall u k lo hi, hi <= lo -> getRandomLinear u lo hi k = UB /\ getRandomExp u lo hi k = UB.
Proof.
  intros u k lo hi H. unfold getRandomLinear, getRandomExp, Rltb. destruct (Rlt_dec lo hi); [lra|]. split; reflexivity.
Qed.
Print Assumptions random_empty_range.

Example random_empty_range_ex : 2 <= 2 /\ 1 <= 2.
Proof. lra. Qed.

(** C188: false for the bounds of the documentation: the exponential distribution gives
    0, although documented as positive. *)
Theorem exp_positive_refuted : exists u lambda, unit_values u /\ 0 < lambda /\ getRandomExpDist u lambda 0%nat = Ok (0, 1%nat).
Proof.
  exists (fun _ => 0), 1. split; [intro; lra|]. split; [lra|]. unfold getRandomExpDist. rewrite Rminus_0_r, ln_1. repeat f_equal. lra.
Qed.
Print Assumptions exp_positive_refuted.

(** C186: the field made of a random cell has the cell's positions, up to the error of
    the text round trip. *)
Theorem rand_field : forall u wkt ga e area n lo hi k c k', area_of_ring ga -> (forall p, within e (wkt p) p) ->
  generateRandCell u wkt ga area n lo hi k = Ok (Some c, k') ->
  exists f, generateRandField u wkt ga area n lo hi k = Ok (Some f, k') /\ f_id f = [] /\ f_crs f = [] /\
    cells_within (e + e) (getCellsAbsPosition RNum wkt f) [c].
Proof.
  intros u wkt ga e area n lo hi k c k' GA W E. destruct (rand_cell_result _ _ _ _ _ _ _ _ _ _ E) as (Hn & Ha & Hw).
  destruct (rand_cell_area u wkt ga area n lo hi k GA Hn Ha Hw) as (v & D & H0 & H1). cbv zeta in *.
  destruct (Req_EM_T (ring_area [map wkt (ring_of v)]) 0) as [Z|Z]; [rewrite H0 in E by exact Z; discriminate E|].
  destruct (H1 Z) as (s & r & _ & _ & E' & L & C & _). rewrite E in E'. injection E' as -> _.
  destruct (field_positions wkt e [[r]] [] ) as (f & F & I & R & _ & _ & _ & _ & _ & A); [|exact W|].
  - intros x [<-|[]]. destruct r as [|p r]; [discriminate L|]. split; [now do 3 eexists|]. intros q [<-|[]]. exact C.
  - exists f. unfold generateRandField. rewrite E. cbn [bind fst snd]. rewrite F. cbn [bind]. auto.
Qed.
Print Assumptions rand_field.

Example rand_field_ex : exists c k', generateRandCell (fun _ => / 3) (fun p => p) ring_area 100 9 (/ 2) 1 0%nat = Ok (Some c, k').
Proof.
  destruct (rand_cell_proper (fun _ => / 3) ring_area 100 9 (/ 2) 1 0%nat) as (f & l & r & _ & _ & E).
  - exact id_area_zero.
  - intro; lra.
  - lia.
  - lra.
  - lra.
  - exists [r]. eexists. exact E.
Qed.
