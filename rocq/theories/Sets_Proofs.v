(** Lemmas about set operations. *)
From Coq Require Import List Arith Lia Bool Reals Lra Classical.
From Verif Require Import Outcome Num ListAux Point_Model Angle_Spec Container_Model Ogr_Model Ogr_Spec Sets_Model Sets_Spec.
Import ListNotations.
Open Scope R_scope.

Lemma box_self q e : 0 < e -> box q e q.
Proof. intros H. unfold box. rewrite !Rminus_diag_eq by reflexivity. rewrite Rabs_R0. auto. Qed.

Lemma box_in q e q' e' p : box q e q' -> e' <= e - Rabs (px q' - px q) -> e' <= e - Rabs (py q' - py q) -> box q' e' p -> box q e p.
Proof.
  intros (A & B & C) D E (F & G & H). split; [|split; [|congruence]].
  - replace (px p - px q) with ((px p - px q') + (px q' - px q)) by ring. pose proof (Rabs_triang (px p - px q') (px q' - px q)). lra.
  - replace (py p - py q) with ((py p - py q') + (py q' - py q)) by ring. pose proof (Rabs_triang (py p - py q') (py q' - py q)). lra.
Qed.

(** In every box there is one without points of the segment. *)
Lemma avoid_segment (a b q : pt) e : 0 < e -> exists q' e', 0 < e' /\ (forall p, box q' e' p -> box q e p) /\ forall p, box q' e' p -> ~ on_segment a b p.
Proof.
  intros He. destruct (Req_dec (px b) (px a)) as [EX|EX].
  - (* vertical or a point: move in x *)
    assert (P : forall p, on_segment a b p -> px p = px a) by (intros p (t & _ & X & _); refine (eq_trans X _); rewrite EX; refine (_ : @eq R _ _); ring).
    set (x' := if Rle_dec (px q) (px a) then px q - e / 2 else px q + e / 2).
    assert (HX : Rabs (x' - px q) = e / 2 /\ e / 2 <= Rabs (x' - px a)).
    { unfold x'. destruct (Rle_dec (px q) (px a)).
      - split; [rewrite Rabs_left by lra; lra|rewrite Rabs_left by lra; lra].
      - split; [rewrite Rabs_right by lra; lra|rewrite Rabs_right by lra; lra]. }
    destruct HX as [H1 H2].
    exists (mkPoint (N := RNum) x' (py q) (pz q)), (e / 2). split; [lra|]. 
    assert (B : box q e (mkPoint (N := RNum) x' (py q) (pz q))).
    { unfold box. cbn [px py pz]. rewrite H1, (Rminus_diag_eq (py q)) by reflexivity. rewrite Rabs_R0. repeat split; lra. }
    split.
    + intros p. apply (box_in q e _ (e / 2) p B); cbn [px py]; [rewrite H1; lra|rewrite (Rminus_diag_eq (py q)) by reflexivity; rewrite Rabs_R0; lra].
    + intros p (X & _) O. cbn [px] in X. rewrite (P p O) in X. rewrite Rabs_minus_sym in X. lra.
  - (* move in y, away from the height of the line *)
    set (m := (py b - py a) / (px b - px a)). set (h := fun x => py a + (x - px a) * m).
    assert (P : forall p, on_segment a b p -> py p = h (px p)).
    { intros p (t & _ & X & Y & _). unfold h. refine (eq_trans Y _). rewrite X. unfold m. refine (_ : @eq R _ _). field. lra. }
    set (y' := if Rle_dec (py q) (h (px q)) then py q - e / 2 else py q + e / 2).
    assert (HY : Rabs (y' - py q) = e / 2 /\ e / 2 <= Rabs (y' - h (px q))).
    { unfold y'. destruct (Rle_dec (py q) (h (px q))).
      - split; [rewrite Rabs_left by lra; lra|rewrite Rabs_left by lra; lra].
      - split; [rewrite Rabs_right by lra; lra|rewrite Rabs_right by lra; lra]. }
    destruct HY as [H1 H2].
    assert (M : 0 <= Rabs m) by apply Rabs_pos.
    set (d := e / 2 / (1 + Rabs m)). assert (Hd : 0 < d) by (unfold d; apply Rdiv_lt_0_compat; lra).
    assert (Hd2 : d * (1 + Rabs m) = e / 2) by (unfold d; field; lra).
    assert (Hd3 : d <= e / 2) by nra.
    exists (mkPoint (N := RNum) (px q) y' (pz q)), d. split; [exact Hd|].
    assert (B : box q e (mkPoint (N := RNum) (px q) y' (pz q))).
    { unfold box. cbn [px py pz]. rewrite H1, (Rminus_diag_eq (px q)) by reflexivity. rewrite Rabs_R0. repeat split; lra. }
    split.
    + intros p. apply (box_in q e _ d p B); cbn [px py]; [rewrite (Rminus_diag_eq (px q)) by reflexivity; rewrite Rabs_R0; lra|rewrite H1; lra].
    + intros p (X & Y & _) O. cbn [px py] in X, Y. specialize (P p O). rewrite P in Y.
      assert (E : h (px p) - y' = (h (px q) - y') + (px p - px q) * m) by (unfold h; ring). rewrite E in Y.
      assert (T : Rabs (y' - h (px q)) <= Rabs (h (px q) - y' + (px p - px q) * m) + Rabs ((px p - px q) * m)).
      { rewrite (Rabs_minus_sym y'). replace (h (px q) - y') with ((h (px q) - y' + (px p - px q) * m) - (px p - px q) * m) at 1 by ring.
        apply Rabs_triang_gen || (unfold Rminus at 1; eapply Rle_trans; [apply Rabs_triang|]; rewrite Rabs_Ropp; apply Rle_refl). }
      rewrite Rabs_mult in T. assert (Rabs (px p - px q) * Rabs m <= d * Rabs m) by nra. nra.
Qed.

Lemma avoid_segments (L : list (pt * pt)) : forall q e, 0 < e ->
  exists q' e', 0 < e' /\ (forall p, box q' e' p -> box q e p) /\ forall p, box q' e' p -> forall a b, In (a, b) L -> ~ on_segment a b p.
Proof.
  induction L as [|[a b] L IH]; intros q e He.
  - exists q, e. split; [exact He|]. split; [auto|]. intros p _ a b [].
  - destruct (avoid_segment a b q e He) as (q1 & e1 & H1 & S1 & A1). destruct (IH q1 e1 H1) as (q2 & e2 & H2 & S2 & A2).
    exists q2, e2. split; [exact H2|]. split; [intros p Hp; apply S1, S2, Hp|].
    intros p Hp c d [E|I]; [injection E as <- <-; apply A1, S2, Hp|now apply A2].
Qed.

(** The segments and points of a geometry. *)
Definition thin1 (g : ogr RNum) : list (pt * pt) :=
  match g with
  | GPoint p => [(p, p)]
  | GLine l => combine l (tl l)
  | GPoints ps => map (fun p => (p, p)) ps
  | GLines ls => flat_map (fun l => combine l (tl l)) ls
  | _ => []
  end.
Definition thin (g : ogr RNum) : list (pt * pt) := match g with GCollection gs => flat_map thin1 gs | _ => thin1 g end.

Lemma on_segment_refl (p : pt) : on_segment p p p.
Proof. exists 0. split; [lra|]. destruct p as [x y z]. cbn [px py pz]. repeat split; refine (_ : @eq R _ _); change (carrier RNum) with R in *; ring. Qed.
Lemma on_line_pairs (l : list pt) q : on_line l q -> exists a b, In (a, b) (combine l (tl l)) /\ on_segment a b q.
Proof.
  induction l as [|a l IH]; [intros []|]. destruct l as [|b l]; [intros []|]. intros [H|H].
  - exists a, b. split; [now left|exact H].
  - destruct (IH H) as (c & d & I & O). exists c, d. split; [right; exact I|exact O].
Qed.

Lemma cells_collection (gs : list (ogr RNum)) : forall d, fold_left (fun d g => match g with GPolygon rings => coll_addGeometry d rings | _ => d end) gs d =
  d ++ flat_map (fun g => match g with GPolygon rings => [rings] | _ => [] end) gs.
Proof.
  induction gs as [|g gs IH]; intros d; cbn [fold_left flat_map]; [now rewrite app_nil_r|]. rewrite IH. destruct g; try reflexivity.
  unfold coll_addGeometry. now rewrite <- app_assoc.
Qed.

Lemma member_points region gs q : points_of region (GCollection gs) q <-> exists g, In g gs /\ points_of region g q.
Proof.
  induction gs as [|g gs IH]; [split; [intros []|intros (g & [] & _)]|]. cbn [points_of] in *. rewrite IH. clear IH. split.
  - intros [H|(h & I & H)]; [exists g|exists h]; split; auto; [now left|now right].
  - intros (h & [<-|I] & H); [now left|right; eauto].
Qed.

Lemma cells_points region g q : in_cells region (cells_of_ogr RNum g) q -> points_of region g q.
Proof.
  intros (c & I & H). destruct g; cbn [cells_of_ogr points_of] in *; try tauto.
  - destruct I as [<-|[]]. exact H.
  - eauto.
  - rewrite cells_collection in I. cbn [app] in I. apply in_flat_map in I. destruct I as (h & Ih & Ic).
    apply (member_points region gs q). exists h. split; [exact Ih|]. destruct h; cbn in Ic; try tauto. destruct Ic as [<-|[]]. exact H.
Qed.

Lemma thin1_points region g q : (forall ps, g <> GPolygons ps) -> (forall hs, g <> GCollection hs) -> (forall c, g <> GPolygon c) ->
  points_of region g q -> exists a b, In (a, b) (thin1 g) /\ on_segment a b q.
Proof.
  intros H1 H2 H3 H. destruct g; cbn [points_of thin1] in *.
  - subst. exists p, p. split; [now left|apply on_segment_refl].
  - now apply on_line_pairs.
  - exists q, q. split; [apply in_map_iff; eauto|apply on_segment_refl].
  - destruct H as (l & Il & O). destruct (on_line_pairs l q O) as (a & b & I & S). exists a, b. split; [apply in_flat_map; eauto|exact S].
  - now elim (H3 rings).
  - now elim (H1 ps).
  - now elim (H2 gs).
Qed.

Lemma points_cells region g q : single_members g -> points_of region g q ->
  in_cells region (cells_of_ogr RNum g) q \/ exists a b, In (a, b) (thin g) /\ on_segment a b q.
Proof.
  intros F H. destruct g as [| | | |c|cs|gs];
    try (right; apply (thin1_points region); [discriminate..|exact H]).
  - left. exists c. split; [now left|exact H].
  - left. exact H.
  - apply member_points in H. destruct H as (h & Ih & H). destruct (F gs eq_refl h Ih) as [F1 F2].
    destruct (classic (exists c, h = GPolygon c)) as [(c & ->)|NP].
    + left. exists c. split; [|exact H]. cbn [cells_of_ogr]. rewrite cells_collection. cbn [app]. apply in_flat_map. eexists. split; [exact Ih|now left].
    + right. destruct (thin1_points region h q F1 F2) as (a & b & I & S); [intros c E; apply NP; eauto|exact H|].
      exists a, b. split; [apply in_flat_map; eauto|exact S].
Qed.

(** The cells made of a geometry are the same but for stray points and lines. *)
Lemma cells_same_area region g (A B : pt -> Prop) : single_members g -> (forall q, A q -> points_of region g q) -> (forall q, points_of region g q -> B q) ->
  (forall q, in_cells region (cells_of_ogr RNum g) q -> B q) /\ (forall q, interior A q -> limit (in_cells region (cells_of_ogr RNum g)) q).
Proof.
  intros F HA HB. split; [intros q H; apply HB, cells_points, H|].
  intros q (e & He & HI) e' He'. set (m := Rmin e e'). assert (Hm : 0 < m) by (unfold m; apply Rmin_glb_lt; assumption).
  destruct (avoid_segments (thin g) q m Hm) as (p & d & Hd & S & N). specialize (S p (box_self p d Hd)). specialize (N p (box_self p d Hd)).
  assert (L : m <= e /\ m <= e') by (unfold m; split; [apply Rmin_l|apply Rmin_r]).
  exists p. split; [destruct S as (A1 & A2 & A3); repeat split; auto; lra|].
  assert (P : points_of region g p) by (apply HA, HI; destruct S as (A1 & A2 & A3); repeat split; auto; lra).
  destruct (points_cells region g p F P) as [C|(a & b & I & O)]; [exact C|]. exfalso. exact (N a b I O).
Qed.

(** Finitely many closed sets are closed. *)
Lemma limit_cells region cs q : (forall c p, limit (region c) p -> region c p) -> limit (in_cells region cs) q -> in_cells region cs q.
Proof.
  intros HC. induction cs as [|c cs IH]; intros L.
  - destruct (L 1 ltac:(lra)) as (p & _ & (c & [] & _)).
  - destruct (classic (region c q)) as [H|H]; [exists c; split; [now left|exact H]|].
    assert (NL : exists e, 0 < e /\ forall p, box q e p -> ~ region c p).
    { apply NNPP. intros NE. apply H, HC. intros e He. apply NNPP. intros N. apply NE. exists e. split; [exact He|].
      intros p B R. apply N. eauto. }
    destruct NL as (e & He & NR). destruct IH as (c' & I & R); [|exists c'; split; [now right|exact R]].
    intros e' He'. destruct (L (Rmin e e')) as (p & B & (c' & [<-|I] & R)); [apply Rmin_glb_lt; assumption| |].
    + exfalso. apply (NR p); [|exact R]. destruct B as (A1 & A2 & A3). pose proof (Rmin_l e e'). repeat split; auto; lra.
    + exists p. split; [destruct B as (A1 & A2 & A3); pose proof (Rmin_r e e'); repeat split; auto; lra|exists c'; auto].
Qed.
