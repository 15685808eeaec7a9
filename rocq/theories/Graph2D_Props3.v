(** Shortest paths in metres (property C273): the costs of a graph over points are whole millimetres. *)
From Coq Require Import List Arith ZArith Lia Bool Reals Lra Rgeom.
From Verif Require Import Outcome Num Point_Model Angle_Model Angle_Spec Graph_Model Graph2D_Model Graph2D_Spec Graph2D_Props
  SwathGen_Proofs2 Plan_Model.
Import ListNotations.
Open Scope R_scope.

(** Distance in the plane and length of a chain of points. *)
Definition metres (a b : pt) : R := sqrt (dist2 a b).
Fixpoint chain_metres (l : list pt) : R :=
  match l with a :: ((b :: _) as t) => metres a b + chain_metres t | _ => 0 end.
(** The number of edges of a chain. *)
Definition edges (l : list pt) : R := INR (length l - 1).

(** A call that inserts no edge with a cost of the caller's choice. *)
Definition by_distance (o : g2op pt) : bool :=
  match o with G2AddDirected _ _ _ | G2Add _ _ _ => false | _ => true end.

Lemma metres_triangle a b c : metres a c <= metres a b + metres b c.
Proof. exact (triangle (px a) (py a) (px c) (py c) (px b) (py b)). Qed.
Lemma metres_sym a b : metres a b = metres b a.
Proof. unfold metres, dist2. f_equal. change (carrier RNum) with R. ring. Qed.
Lemma metres_pos a b : 0 <= metres a b.
Proof. apply sqrt_pos. Qed.

Section Edge.
  Variables (keq : pt -> pt -> bool) (e : R).
  Hypothesis Hnear : forall a b, keq a b = true -> metres a b <= e.

  Lemma edge_metres h p q c : forallb by_distance h = true -> g2_edge keq dist_cost h p q = Some c ->
    1000 * metres p q - 2000 * e - 1 < IZR c <= 1000 * metres p q + 2000 * e.
  Proof.
    intros HB. unfold g2_edge.
    assert (G : forall l old, forallb by_distance l = true ->
      (forall c, old = Some c -> 1000 * metres p q - 2000 * e - 1 < IZR c <= 1000 * metres p q + 2000 * e) ->
      forall c, fold_left (fun old o => g2op_cost keq dist_cost p q o old) l old = Some c ->
        1000 * metres p q - 2000 * e - 1 < IZR c <= 1000 * metres p q + 2000 * e).
    2:{ intro E. revert E. apply G; auto. discriminate. }
    assert (D : forall a b, (keq a p = true /\ keq b q = true) \/ (keq b p = true /\ keq a q = true) ->
      1000 * metres p q - 2000 * e - 1 < IZR (dist_cost a b) <= 1000 * metres p q + 2000 * e).
    { intros a b H. unfold dist_cost. change (p_distance a b) with (metres a b).
      destruct (trunc_spec (1000 * metres a b)) as (_ & T1 & T2); [pose proof (metres_pos a b); lra|].
      assert (metres a b <= metres p q + 2 * e /\ metres p q <= metres a b + 2 * e).
      { destruct H as [[K1 K2]|[K1 K2]]; apply Hnear in K1; apply Hnear in K2.
        - pose proof (metres_triangle a p b). pose proof (metres_triangle p q b). pose proof (metres_triangle p a q).
          pose proof (metres_triangle a b q). rewrite (metres_sym q b) in *. rewrite (metres_sym p a) in *. lra.
        - pose proof (metres_triangle a q b). pose proof (metres_triangle q p b). pose proof (metres_triangle p b q).
          pose proof (metres_triangle b a q). rewrite (metres_sym q p) in *. rewrite (metres_sym p b) in *. rewrite (metres_sym b a) in *. lra. }
      lra. }
    induction l as [|o l IH]; intros old HB' HO c'; [cbn; auto|]. cbn [fold_left]. cbn [forallb] in HB'. apply andb_prop in HB'. destruct HB' as [B1 B2].
    apply IH; auto. intros c0. destruct o; cbn [g2op_cost by_distance] in *; try discriminate B1; auto;
      repeat match goal with |- context [if ?b then _ else _] => destruct b eqn:?K end; auto; intro E; try discriminate E; injection E as <-.
    - apply D. left. apply andb_prop. assumption.
    - apply D. apply orb_prop in K. destruct K as [K|K]; apply andb_prop in K; tauto.
  Qed.

  Lemma route_metres h l c : forallb by_distance h = true -> pt_route keq dist_cost h l c ->
    1000 * chain_metres l <= IZR c + edges l * (1 + 2000 * e) /\ IZR c <= 1000 * chain_metres l + 2000 * e * edges l.
  Proof.
    intros HB H. induction H as [p|p q l c c' E H IH].
    - unfold edges; cbn; lra.
    - pose proof (edge_metres h p q c HB E) as M.
      assert (X : edges (p :: q :: l) = edges (q :: l) + 1).
      { unfold edges. cbn [length]. replace (S (S (length l)) - 1)%nat with (S (length l)) by lia.
        replace (S (length l) - 1)%nat with (length l) by lia. rewrite S_INR. reflexivity. }
      rewrite X, plus_IZR. change (chain_metres (p :: q :: l)) with (metres p q + chain_metres (q :: l)).
      revert IH. generalize (edges (q :: l)) (chain_metres (q :: l)). intros n m IH. split; [|lra].
      destruct IH as [IH _]. lra.
  Qed.
End Edge.

(** C273: the path returned is the shortest in metres up to a millimetre for each of its edges (and twice the
    distance up to which points are taken to be the same for each edge of either). *)
Theorem shortest_in_metres : forall (keq : pt -> pt -> bool) e, equivalence keq ->
  (forall a b, keq a b = true -> metres a b <= e) ->
  forall h1 h2 g INF a b, let h := h1 ++ h2 in
  forallb two_way h = true -> forallb by_distance h = true ->
  forallb (fun o => negb (is_query o)) h1 = true -> forallb (fun o => negb (is_removal o)) h2 = true ->
  g2_run keq dist_cost h = Ok g -> (forall I, In I (g2_infs h) -> I = INF) -> (0 < INF <= 4611686018427387904)%Z ->
  (forall p q, In p (inserted h) -> In q (inserted h) -> 1000 * metres p q < IZR INF) ->
  (exists p, In p (inserted h) /\ keq p a = true) -> (exists p, In p (inserted h) /\ keq p b = true) ->
  exists g1 g2 path c,
    g2_shortestPathCost keq g a b INF = Ok (g1, c) /\ g2_shortestPath keq g a b INF = Ok (g2, path) /\
    (path <> [] -> 1000 * chain_metres path <= IZR c + edges path * (1 + 2000 * e) /\ IZR c <= 1000 * chain_metres path + 2000 * e * edges path) /\
    forall l c' p q, pt_route keq dist_cost h l c' -> hd_error l = Some p -> keq p a = true -> hd_error (rev l) = Some q -> keq q b = true ->
      1000 * chain_metres l + 2000 * e * edges l < IZR INF ->
      IZR c <= 1000 * chain_metres l + 2000 * e * edges l /\
      chain_metres path <= chain_metres l + edges path * (/ 1000 + 2 * e) + edges l * (2 * e).
Proof.
  intros keq e Heq Hnear h1 h2 g INF a b h HU HB HQ1 HQ2 E HI HINF Hd Ha Hb.
  assert (Hc : forall p q c, g2_edge keq dist_cost h p q = Some c -> (0 <= c < INF)%Z).
  { intros p q c. unfold g2_edge.
    assert (G : forall l old, incl l h -> (forall c, old = Some c -> (0 <= c < INF)%Z) ->
      forall c, fold_left (fun old o => g2op_cost keq dist_cost p q o old) l old = Some c -> (0 <= c < INF)%Z).
    2:{ apply G; [apply incl_refl|discriminate]. }
    assert (D : forall x y, In x (inserted h) -> In y (inserted h) -> (0 <= dist_cost x y < INF)%Z).
    { intros x y Hx Hy. unfold dist_cost. change (p_distance x y) with (metres x y).
      destruct (trunc_spec (1000 * metres x y)) as (T0 & T1 & T2); [pose proof (metres_pos x y); lra|].
      split; auto. apply lt_IZR. specialize (Hd x y Hx Hy). lra. }
    induction l as [|o l IH]; intros old HL HO c'; [cbn; auto|]. cbn [fold_left]. apply IH; [intros z Hz; apply HL; right; auto|].
    assert (Ho : In o h) by (apply HL; left; auto).
    assert (B1 : by_distance o = true) by (rewrite forallb_forall in HB; apply HB; auto).
    assert (II : forall x, In x (op_points o) -> In x (inserted h)) by (intros x Hx; unfold inserted; apply in_flat_map; eauto).
    intros c0. destruct o; cbn [g2op_cost by_distance op_points] in *; try discriminate B1; auto;
      repeat match goal with |- context [if ?b then _ else _] => destruct b eqn:?K end; auto; intro X; try discriminate X; injection X as <-;
      apply D; apply II; cbn; auto. }
  destruct (point_shortest_path pt keq dist_cost Heq h1 h2 g INF a b HU HQ1 HQ2 E HI HINF Hc Ha Hb)
    as (g1 & g2 & path & c & P1 & P2 & P3 & P4 & P5 & P6).
  exists g1, g2, path, c. split; [exact P1|]. split; [exact P2|].
  assert (PM : path <> [] -> 1000 * chain_metres path <= IZR c + edges path * (1 + 2000 * e) /\ IZR c <= 1000 * chain_metres path + 2000 * e * edges path).
  { intro Np. apply (route_metres keq e Hnear h); auto. apply P6; auto. }
  split; [exact PM|].
  intros l c' p q R1 R2 R3 R4 R5 R6.
  destruct (route_metres keq e Hnear h l c' HB R1) as [_ M].
  assert (L : (c <= c')%Z). { apply (P4 l c' p q); auto. apply lt_IZR. fold h. lra. }
  apply IZR_le in L. split; [lra|].
  assert (He : 0 <= e) by (pose proof (Hnear a a (proj1 Heq a)); pose proof (metres_pos a a); lra).
  destruct path as [|x path].
  - cbn [chain_metres]. assert (CM : 0 <= chain_metres l).
    { clear. induction l as [|x [|y l] IH]; cbn [chain_metres]; try lra. pose proof (metres_pos x y). cbn [chain_metres] in IH. lra. }
    assert (0 <= edges l * (2 * e)) by (apply Rmult_le_pos; [apply pos_INR|lra]).
    change (edges []) with 0. lra.
  - destruct (PM ltac:(discriminate)) as [Q1 _]. lra.
Qed.
Print Assumptions shortest_in_metres.

(** *** A graph in which the path returned is not the shortest *)

(** Equality of points, as [operator==] is for points on a grid (C88). *)
Definition same_place (a b : pt) : bool :=
  if Req_EM_T (px a) (px b) then if Req_EM_T (py a) (py b) then if Req_EM_T (pz a) (pz b) then true else false else false else false.
Lemma same_place_iff a b : same_place a b = true <-> a = b.
Proof.
  unfold same_place. destruct a as [x y z], b as [x' y' z']. cbn.
  destruct (Req_EM_T x x'), (Req_EM_T y y'), (Req_EM_T z z'); split; intro H; try discriminate; subst; try reflexivity;
    exfalso; injection H; intros; contradiction.
Qed.
Lemma same_place_equivalence : equivalence same_place.
Proof.
  split; [|split].
  - intro. apply same_place_iff. reflexivity.
  - intros p q. destruct (same_place p q) eqn:E, (same_place q p) eqn:F; auto.
    + apply same_place_iff in E. rewrite (proj2 (same_place_iff q p) (eq_sym E)) in F. discriminate.
    + apply same_place_iff in F. rewrite (proj2 (same_place_iff p q) (eq_sym F)) in E. discriminate.
  - intros p q r H1 H2. apply same_place_iff in H1, H2. apply same_place_iff. congruence.
Qed.
Lemma same_place_metres a b : same_place a b = true -> metres a b <= 0.
Proof.
  intro H. apply same_place_iff in H. subst. unfold metres, dist2.
  replace ((px b - px b) * (px b - px b) + (py b - py b) * (py b - py b))%R with 0%R by (change (carrier RNum) with R; ring).
  rewrite sqrt_0. apply Rle_refl.
Qed.

Definition pA : pt := mkPoint (N := RNum) 0 0 0.
Definition pB : pt := mkPoint (N := RNum) (144 / 100000) 0 0.
Definition pC : pt := mkPoint (N := RNum) (72 / 100000) (54 / 100000) 0.
Definition three : list (g2op pt) := [G2AddDist pA pB; G2AddDist pA pC; G2AddDist pC pB].

Lemma mAB : metres pA pB = 144 / 100000.
Proof.
  unfold metres, dist2, pA, pB; cbn.
  replace ((0 - 144 / 100000) * (0 - 144 / 100000) + (0 - 0) * (0 - 0)) with ((144 / 100000) * (144 / 100000)) by field.
  apply sqrt_square. lra.
Qed.
Lemma mAC : metres pA pC = 90 / 100000.
Proof.
  unfold metres, dist2, pA, pC; cbn.
  replace ((0 - 72 / 100000) * (0 - 72 / 100000) + (0 - 54 / 100000) * (0 - 54 / 100000)) with ((90 / 100000) * (90 / 100000)) by field.
  apply sqrt_square. lra.
Qed.
Lemma mCB : metres pC pB = 90 / 100000.
Proof.
  unfold metres, dist2, pB, pC; cbn.
  replace ((72 / 100000 - 144 / 100000) * (72 / 100000 - 144 / 100000) + (54 / 100000 - 0) * (54 / 100000 - 0)) with ((90 / 100000) * (90 / 100000)) by field.
  apply sqrt_square. lra.
Qed.
Lemma trunc_is x z : (0 <= z)%Z -> IZR z <= x < IZR z + 1 -> Rtrunc x = z.
Proof.
  intros Hz H. apply IZR_le in Hz. destruct (trunc_spec x) as (_ & T1 & T2); [lra|].
  assert (A : IZR (Rtrunc x) < IZR (z + 1)) by (rewrite plus_IZR; lra). assert (B : IZR z < IZR (Rtrunc x + 1)) by (rewrite plus_IZR; lra).
  apply lt_IZR in A. apply lt_IZR in B. lia.
Qed.
Lemma cAB : dist_cost pA pB = 1%Z.
Proof. unfold dist_cost. change (p_distance pA pB) with (metres pA pB). rewrite mAB. apply trunc_is; [lia|lra]. Qed.
Lemma cAC : dist_cost pA pC = 0%Z.
Proof. unfold dist_cost. change (p_distance pA pC) with (metres pA pC). rewrite mAC. apply trunc_is; [lia|lra]. Qed.
Lemma cCB : dist_cost pC pB = 0%Z.
Proof. unfold dist_cost. change (p_distance pC pB) with (metres pC pB). rewrite mCB. apply trunc_is; [lia|lra]. Qed.

Lemma ptsAB : pA <> pB. Proof. intro H. injection H. intros. lra. Qed.
Lemma ptsAC : pA <> pC. Proof. intro H. injection H. intros. lra. Qed.
Lemma ptsCB : pC <> pB. Proof. intro H. injection H. intros. lra. Qed.

Lemma three_edge p q c : g2_edge same_place dist_cost three p q = Some c ->
  (p = pA /\ q = pB /\ c = 1%Z) \/ (p = pB /\ q = pA /\ c = 1%Z) \/ (c = 0%Z /\ (p = pA \/ p = pB) /\ q = pC) \/ (c = 0%Z /\ p = pC /\ (q = pA \/ q = pB)).
Proof.
  unfold g2_edge, three. cbn [fold_left g2op_cost]. rewrite cAB, cAC, cCB.
  destruct (same_place pA p) eqn:E1; [apply same_place_iff in E1|]; destruct (same_place pB p) eqn:E2; [apply same_place_iff in E2| |apply same_place_iff in E2|];
    (destruct (same_place pC p) eqn:E3; [apply same_place_iff in E3|]);
    (destruct (same_place pA q) eqn:F1; [apply same_place_iff in F1|]);
    (destruct (same_place pB q) eqn:F2; [apply same_place_iff in F2|]);
    (destruct (same_place pC q) eqn:F3; [apply same_place_iff in F3|]); cbn [andb orb]; intro H; try discriminate H;
    try (injection H as <-); subst;
    repeat match goal with X : ?a = ?b :> pt |- _ => first [ now elim (ptsAB X) | now elim (ptsAC X) | now elim (ptsCB X) | now elim (ptsAB (eq_sym X)) | now elim (ptsAC (eq_sym X)) | now elim (ptsCB (eq_sym X)) ] end;
    auto 10.
Qed.

(** C273 is false without the margin. *)
Theorem shortest_in_metres_refuted : exists (h : list (g2op pt)) g g2 path, forallb by_distance h = true /\
  g2_run same_place dist_cost h = Ok g /\ g2_shortestPath same_place g pA pB (2 ^ 30) = Ok (g2, path) /\
  (exists c, pt_route same_place dist_cost h [pA; pB] c) /\ chain_metres [pA; pB] < chain_metres path.
Proof.
  destruct (g2_run same_place dist_cost three) as [g| | |] eqn:E.
  2,3,4: cbn in E; discriminate E.
  assert (R0 : pt_route same_place dist_cost three [pA; pC; pB] 0).
  { change 0%Z with (0 + (0 + 0))%Z. assert (S : forall x, same_place x x = true) by (intro; apply same_place_iff; reflexivity).
    assert (N : forall x y, x <> y -> same_place x y = false).
    { intros x y H. destruct (same_place x y) eqn:K; auto. apply same_place_iff in K. contradiction. }
    constructor; [|constructor; [|constructor]]; unfold g2_edge, three; cbn [fold_left g2op_cost]; rewrite cAB, cAC, cCB, ?S;
      rewrite ?(N _ _ ptsAB), ?(N _ _ ptsAC), ?(N _ _ ptsCB), ?(N _ _ (not_eq_sym ptsAB)), ?(N _ _ (not_eq_sym ptsAC)), ?(N _ _ (not_eq_sym ptsCB)); reflexivity. }
  assert (R1 : pt_route same_place dist_cost three [pA; pB] 1).
  { change 1%Z with (1 + 0)%Z. assert (S : forall x, same_place x x = true) by (intro; apply same_place_iff; reflexivity).
    assert (N : forall x y, x <> y -> same_place x y = false).
    { intros x y H. destruct (same_place x y) eqn:K; auto. apply same_place_iff in K. contradiction. }
    constructor; [|constructor]; unfold g2_edge, three; cbn [fold_left g2op_cost]; rewrite cAB, cAC, cCB, ?S;
      rewrite ?(N _ _ ptsAB), ?(N _ _ ptsAC), ?(N _ _ ptsCB), ?(N _ _ (not_eq_sym ptsAB)), ?(N _ _ (not_eq_sym ptsAC)), ?(N _ _ (not_eq_sym ptsCB)); reflexivity. }
  assert (HC : forall p q c, g2_edge same_place dist_cost (three ++ []) p q = Some c -> (0 <= c < 2 ^ 30)%Z) by (intros p q c H; apply three_edge in H; lia).
  assert (HA : exists p, In p (inserted (three ++ [])) /\ same_place p pA = true) by (exists pA; split; [cbn; auto|apply same_place_iff; reflexivity]).
  assert (HB : exists p, In p (inserted (three ++ [])) /\ same_place p pB = true) by (exists pB; split; [cbn; auto|apply same_place_iff; reflexivity]).
  assert (HI : forall I, In I (g2_infs (three ++ [])) -> I = (2 ^ 30)%Z) by (cbn; intros I []).
  assert (HF : (0 < 2 ^ 30 <= 4611686018427387904)%Z) by lia.
  destruct (point_shortest_path pt same_place dist_cost same_place_equivalence three [] g (2 ^ 30) pA pB eq_refl eq_refl eq_refl E HI HF HC HA HB)
    as (g1 & g2 & path & c & P1 & P2 & P3 & P4 & P5 & P6).
  - exists three, g, g2, path. split; [reflexivity|]. split; [exact E|]. split; [exact P2|]. split; [exists 1%Z; exact R1|].
    assert (C0 : c = 0%Z).
    { assert (c <= 0)%Z by (apply (P4 [pA; pC; pB] 0%Z pA pB); auto; try apply same_place_iff; reflexivity). lia. }
    subst c.
    assert (Np : path <> []).
    { intro Z0. apply P5 in Z0. destruct Z0 as [Z0|Z0]; [apply same_place_iff in Z0; exact (ptsAB Z0)|discriminate Z0]. }
    destruct (P6 Np) as (RR & p & q & H1 & H2 & H3 & H4). apply same_place_iff in H2, H4. subst p q.
    assert (NN : forall l c, pt_route same_place dist_cost (three ++ []) l c -> (0 <= c)%Z).
    { intros l c H. induction H as [|u v l c0 c1 Hu _ IH]; [lia|]. apply three_edge in Hu. lia. }
    assert (CM : forall l, 0 <= chain_metres l).
    { induction l as [|x [|y l] IH]; cbn [chain_metres]; try lra. pose proof (metres_pos x y). cbn [chain_metres] in IH. lra. }
    change (three ++ []) with three in *.
    inversion RR as [u|u v l c0 c1 Hu Hl Eu]; subst; [cbn [hd_error rev app] in H1, H3; elim ptsAB; congruence|].
    cbn [hd_error] in H1. assert (u = pA) by congruence. subst u.
    assert (c0 = 0%Z /\ c1 = 0%Z) as [-> ->] by (pose proof (NN _ _ Hl); apply three_edge in Hu; lia).
    apply three_edge in Hu. destruct Hu as [(_ & _ & K)|[(K & _)|[(_ & _ & ->)|(_ & K & _)]]];
      [discriminate K|now elim (ptsAB K)| |now elim (ptsAC K)].
    inversion Hl as [u|u v l' c0 c1 Hu Hl' Eu]; subst; [cbn [hd_error rev app] in H3; elim ptsCB; congruence|].
    apply three_edge in Hu.
    assert (V : v = pA \/ v = pB).
    { destruct Hu as [(K & _)|[(K & _)|[(_ & [K|K] & _)|(_ & _ & K)]]]; auto;
      first [now elim (ptsAC (eq_sym K))|now elim (ptsCB K)]. }
    assert (M2 : metres pC v = 90 / 100000) by (destruct V as [->| ->]; [rewrite metres_sym; exact mAC|exact mCB]).
    change (chain_metres (pA :: pC :: v :: l')) with (metres pA pC + (metres pC v + chain_metres (v :: l'))).
    change (chain_metres [pA; pB]) with (metres pA pB + 0). rewrite mAB, mAC, M2. pose proof (CM (v :: l')). lra.
Qed.
Print Assumptions shortest_in_metres_refuted.

Example shortest_in_metres_ex : exists g, equivalence same_place /\ (forall a b, same_place a b = true -> metres a b <= 0) /\
  forallb two_way three = true /\ forallb by_distance three = true /\ g2_run same_place dist_cost three = Ok g /\
  (forall p q, In p (inserted three) -> In q (inserted three) -> 1000 * metres p q < IZR (2 ^ 30)).
Proof.
  eexists. split; [exact same_place_equivalence|]. split; [exact same_place_metres|]. split; [reflexivity|]. split; [reflexivity|].
  split; [reflexivity|]. intros p q Hp Hq. cbn in Hp, Hq.
  assert (Z : forall x, metres x x = 0) by (intro x; apply Rle_antisym; [apply same_place_metres, same_place_iff; reflexivity|apply metres_pos]).
  repeat destruct Hp as [<-|Hp]; repeat destruct Hq as [<-|Hq]; try contradiction;
    rewrite ?Z, ?mAB, ?mAC, ?mCB, ?(metres_sym pB pA), ?(metres_sym pC pA), ?(metres_sym pB pC), ?mAB, ?mAC, ?mCB; lra.
Qed.
