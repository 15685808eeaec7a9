(** Theorems about the geometry containers (properties C68, C69, C78, C134-C136). *)
From Coq Require Import List Arith Lia Bool Reals Lra.
From Verif Require Import Outcome Num ListAux Point_Model Swath_Model Container_Model Container_Spec Container_Proofs.
Import ListNotations.
Open Scope R_scope.

Notation rswath := (swath pt R).

(** *** Moving (C68, C134) *)

(** Moving a swath by an offset of at least 1e-7 in some coordinate moves every
    point by exactly the offset and changes nothing else. *)
Theorem moveTo_exact : forall (d : pt) (s : rswath),
  (/ 10000000 <= Rabs (px d) \/ / 10000000 <= Rabs (py d) \/ / 10000000 <= Rabs (pz d)) ->
  exists s', swath_moveTo RNum d s = Ok s' /\ Forall2 (moved d) (sw_path s) (sw_path s') /\
    sw_id s' = sw_id s /\ sw_width s' = sw_width s /\ sw_dir s' = sw_dir s /\ sw_type s' = sw_type s.
Proof.
  intros d s H. unfold swath_moveTo. rewrite for_points_map by apply line_set_ok. cbn [bind].
  eexists; split; [reflexivity|]. split; [|repeat split; reflexivity].
  cbn [sw_path swath_setPath]. apply map_Forall2. intros p _.
  destruct (back_image (moved d) (fun p => p_add RNum p d) p) as [[M _]|[_ [q [[M1 [M2 M3]] [C1 [C2 C3]]]]]]; auto.
  - repeat split; reflexivity.
  - exfalso. rewrite M1 in C1. rewrite M2 in C2. rewrite M3 in C3.
    assert (Q : forall x y : R, x - (x + y) = - y) by (intros; ring).
    rewrite Q, Rabs_Ropp in C1, C2, C3. lra.
Qed.

(** A smaller offset is ignored altogether. *)
Theorem moveTo_ignored : forall (d : pt) (s : rswath),
  Rabs (px d) < / 10000000 -> Rabs (py d) < / 10000000 -> Rabs (pz d) < / 10000000 ->
  swath_moveTo RNum d s = Ok s.
Proof.
  intros d s H1 H2 H3. unfold swath_moveTo. rewrite for_points_map by apply line_set_ok. cbn [bind].
  assert (E : map (back RNum (fun p => p_add RNum p d)) (sw_path s) = sw_path s).
  { rewrite <- (map_id (sw_path s)) at 2. apply map_ext. intros p. unfold back.
    destruct (p_ne_close p (p_add RNum p d)) as [[_ C]|[-> _]]; [exfalso|reflexivity].
    apply C. assert (Q : forall x y : R, Rabs (x - (x + y)) = Rabs y).
    { intros; replace (x - (x + y)) with (- y) by ring. apply Rabs_Ropp. }
    repeat split; unfold p_add; cbn [px py pz]; (eapply Rle_lt_trans; [right; apply Q|assumption]). }
  etransitivity; [exact (f_equal (fun x => Ok (swath_setPath s x)) E)|destruct s; reflexivity].
Qed.

Definition wide : rswath := mkSwath pt R 3%Z [mkPoint (N := RNum) 0 0 0; mkPoint (N := RNum) 1 0 0] 2 true MAINLAND.

(** C68 as stated is false: an offset of 1e-8 is lost. *)
Theorem moveTo_refuted : exists (d : pt) (s s' : rswath),
  swath_moveTo RNum d s = Ok s' /\ ~ Forall2 (moved d) (sw_path s) (sw_path s').
Proof.
  exists (mkPoint (N := RNum) (/ 100000000) 0 0), wide, wide. split.
  - apply moveTo_ignored; cbn [px py pz]; rewrite ?Rabs_R0; try lra.
    rewrite Rabs_right by (left; apply Rinv_0_lt_compat; lra). lra.
  - intros F. inversion F as [|a b la lb M _]; subst. destruct M as [M _]. cbn [px] in M.
    assert (0 < / 100000000) by lra. lra.
Qed.

Example moveTo_exact_ex : exists s', swath_moveTo RNum (mkPoint (N := RNum) 5 0 0) wide = Ok s' /\
  Forall2 (moved (mkPoint (N := RNum) 5 0 0)) (sw_path wide) (sw_path s').
Proof.
  destruct (moveTo_exact (mkPoint (N := RNum) 5 0 0) wide) as [s' [E [F _]]].
  - left; cbn [px]. rewrite Rabs_right; lra.
  - now exists s'.
Qed.

Example moveTo_ignored_ex : swath_moveTo RNum (mkPoint (N := RNum) 0 (/ 20000000) 0) wide = Ok wide.
Proof.
  apply moveTo_ignored; cbn [px py pz]; rewrite ?Rabs_R0; try lra.
  rewrite Rabs_right by (left; apply Rinv_0_lt_compat; lra). lra.
Qed.

(** Moving a list of swaths moves each. *)
Theorem moveTo_all : forall (d : pt) (l : list rswath),
  (/ 10000000 <= Rabs (px d) \/ / 10000000 <= Rabs (py d) \/ / 10000000 <= Rabs (pz d)) ->
  exists l', swaths_moveTo RNum d l = Ok l' /\
    Forall2 (fun s s' => Forall2 (moved d) (sw_path s) (sw_path s') /\ sw_id s' = sw_id s /\ sw_width s' = sw_width s /\
      sw_dir s' = sw_dir s /\ sw_type s' = sw_type s) l l'.
Proof.
  intros d l H; induction l as [|s l IH].
  - exists []; split; [reflexivity|constructor].
  - destruct IH as [l' [E F]]. destruct (moveTo_exact d s H) as [s' [E' [M [I [W [D T]]]]]].
    exists (s' :: l'). unfold swaths_moveTo in *; cbn [mapM]. rewrite E'; cbn [bind]. rewrite E; cbn [bind].
    split; [reflexivity|]. constructor; auto.
Qed.

Example moveTo_all_ex : exists l', swaths_moveTo RNum (mkPoint (N := RNum) 0 0 1) [wide; wide] = Ok l' /\ length l' = 2%nat.
Proof.
  destruct (moveTo_all (mkPoint (N := RNum) 0 0 1) [wide; wide]) as [l' [E F]].
  - right; right; cbn [pz]; rewrite Rabs_R1; lra.
  - exists l'; split; auto. apply Forall2_length in F. symmetry; exact F.
Qed.

(** *** Scaling (C68, C134) *)

(** Scaling a line, ring or multi-point multiplies the coordinates of each point by
    the factor, except for the points whose image is within 1e-7 in every
    coordinate; those stay. *)
Theorem scale_line : forall (b : R) (l : line RNum),
  exists l', line_scale RNum b l = Ok l' /\ Forall2 (moved_unless_close (scaled b)) l l'.
Proof.
  intros b l. unfold line_scale. rewrite for_points_map by apply line_set_ok. eexists; split; [reflexivity|].
  apply map_Forall2; intros p _. apply back_image. repeat split; reflexivity.
Qed.

Theorem scale_points : forall (b : R) (l : line RNum),
  exists l', mpoint_scale RNum b l = Ok l' /\ Forall2 (moved_unless_close (scaled b)) l l'.
Proof.
  intros b l. unfold mpoint_scale. rewrite for_points_map by apply mpoint_set_ok. eexists; split; [reflexivity|].
  apply map_Forall2; intros p _. apply back_image. repeat split; reflexivity.
Qed.

(** Every ring of every cell is scaled. *)
Lemma cell_scale_map (b : R) (c : cell RNum) :
  cell_scale RNum b c = Ok (map (map (back RNum (fun p => p_scale RNum p b))) c).
Proof.
  unfold cell_scale. rewrite (for_parts_mutate _ _ (map (back RNum (fun p => p_scale RNum p b)))).
  - destruct (forallb (line_isEmpty RNum) c) eqn:E; [|reflexivity]. f_equal.
    induction c as [|r c IH]; [reflexivity|]. cbn [forallb] in E. apply andb_true_iff in E as [E1 E2].
    destruct r; [|discriminate]. cbn [map]. f_equal. auto.
  - intros a _. unfold line_scale. apply for_points_map, line_set_ok.
Qed.

Theorem scale_cells : forall (b : R) (c : cells RNum),
  exists c', cells_scale RNum b c = Ok c' /\ Forall2 (Forall2 (Forall2 (moved_unless_close (scaled b)))) c c'.
Proof.
  intros b c. unfold cells_scale.
  rewrite (for_parts_mutate _ _ (map (map (back RNum (fun p => p_scale RNum p b))))) by (intros; apply cell_scale_map).
  eexists; split; [reflexivity|].
  assert (B : forall p, moved_unless_close (scaled b) p (back RNum (fun p => p_scale RNum p b) p)).
  { intros p; apply back_image; repeat split; reflexivity. }
  assert (G : Forall2 (Forall2 (Forall2 (moved_unless_close (scaled b)))) c (map (map (map (back RNum (fun p => p_scale RNum p b)))) c)).
  { apply map_Forall2; intros x _; apply map_Forall2; intros y _; apply map_Forall2; auto. }
  destruct (forallb (cell_isEmpty RNum) c) eqn:E; [|exact G].
  replace (map (map (map (back RNum (fun p => p_scale RNum p b)))) c) with c in G; auto.
  clear G. induction c as [|x c IH]; [reflexivity|]. cbn [forallb] in E. apply andb_true_iff in E as [E1 E2].
  cbn [map]. rewrite <- IH by auto. f_equal. clear IH E2. induction x as [|r x IH]; [reflexivity|].
  unfold cell_isEmpty in *; cbn [forallb] in E1. apply andb_true_iff in E1 as [E1 E2]. destruct r; [|discriminate].
  cbn [map]. now rewrite <- IH.
Qed.

(** The same for the lines of a multi-line. *)
Theorem scale_mline : forall (b : R) (l : mline RNum),
  exists l', mline_scale RNum b l = Ok l' /\ Forall2 (Forall2 (moved_unless_close (scaled b))) l l'.
Proof.
  intros b l. change (mline_scale RNum b l) with (cell_scale RNum b l). rewrite cell_scale_map.
  eexists; split; [reflexivity|]. apply map_Forall2; intros x _; apply map_Forall2; intros p _.
  apply back_image; repeat split; reflexivity.
Qed.

(** A point may stay although another one of the same line is scaled: lengths are
    not multiplied by the factor. *)
Theorem scale_refuted : exists (b : R) (l l' : line RNum),
  line_scale RNum b l = Ok l' /\ ~ Forall2 (scaled b) l l'.
Proof.
  pose (a := mkPoint (N := RNum) (/ 100000000) 0 0).
  destruct (scale_line 2 [a]) as [l' [E F]]. exists 2, [a], l'. split; auto.
  intros G. inversion F as [|x q la lb M _]; subst. inversion G as [|x' q' la' lb' S _]; subst.
  destruct M as [[_ C]|[-> _]].
  - apply C. destruct S as [S1 [S2 S3]]. unfold a in *; cbn [px py pz] in *.
    unfold close; cbn [px py pz]. rewrite S1, S2, S3, Rmult_0_l, Rminus_0_r, Rabs_R0.
    split; [|split; lra]. rewrite Rabs_left; lra.
  - destruct S as [S1 _]. unfold a in S1; cbn [px] in S1. lra.
Qed.

Example scale_cells_ex : exists c', cells_scale RNum 2 [[[mkPoint (N := RNum) 1 1 0; mkPoint (N := RNum) 3 1 0]]] = Ok c' /\
  Forall2 (Forall2 (Forall2 (scaled 2))) [[[mkPoint (N := RNum) 1 1 0; mkPoint (N := RNum) 3 1 0]]] c'.
Proof.
  destruct (scale_cells 2 [[[mkPoint (N := RNum) 1 1 0; mkPoint (N := RNum) 3 1 0]]]) as [c' [E F]].
  exists c'; split; auto.
  assert (U : forall x y (q : pt), 1 <= x -> moved_unless_close (scaled 2) (mkPoint (N := RNum) x y 0) q -> scaled 2 (mkPoint (N := RNum) x y 0) q).
  { intros x y q X [[S _]|[_ [q' [[S1 _] [C _]]]]]; auto. cbn [px] in *. rewrite S1 in C. exfalso.
    rewrite Rabs_left in C by lra. lra. }
  inversion F as [|? ? ? ? F1 F2]; subst. inversion F2; subst. constructor; [|constructor].
  inversion F1 as [|? ? ? ? F3 F4]; subst. inversion F4; subst. constructor; [|constructor].
  inversion F3 as [|? ? ? ? F5 F6]; subst. inversion F6 as [|? ? ? ? F7 F8]; subst. inversion F8; subst.
  constructor; [|constructor; [|constructor]]; (apply U; [lra|assumption]).
Qed.

(** *** setGeometry (C69, C135) *)

Lemma line_isEmpty_nil N (l : line N) : line_isEmpty N l = true <-> l = [].
Proof. destruct l; split; intros; auto; discriminate. Qed.

Lemma proper_some {N} (l : list (line N)) : proper l -> l = [] \/ forallb (line_isEmpty N) l = false.
Proof.
  intros [->|[x [I X]]]; auto. right. destruct (forallb (line_isEmpty N) l) eqn:E; auto.
  rewrite forallb_forall in E. apply E in I. apply line_isEmpty_nil in I. contradiction.
Qed.

Lemma proper_cells_some {N} (l : cells N) : proper_cells l -> l = [] \/ forallb (cell_isEmpty N) l = false.
Proof.
  intros [->|[c [x [C [I X]]]]]; auto. right. destruct (forallb (cell_isEmpty N) l) eqn:E; auto.
  rewrite forallb_forall in E. apply E in C. unfold cell_isEmpty in C. rewrite forallb_forall in C. apply C in I.
  apply line_isEmpty_nil in I. contradiction.
Qed.

(** For a multi-line or cells without parts, or with some non-empty part,
    setGeometry sets one element and leaves the others. *)
Theorem setGeometry_mline : forall (N : Num) (l : mline N) i (a : line N),
  proper l -> exists r, mline_setGeometry N l i a = Ok r /\ updated [] l i a r.
Proof.
  intros N l i a H. apply (coll_set_updated (line_isEmpty N) (fun x => x) []); auto. now apply proper_some.
Qed.

Theorem setGeometry_cells : forall (N : Num) (l : cells N) i (a : cell N),
  proper_cells l -> exists r, cells_setGeometry N l i a = Ok r /\ updated [] l i a r.
Proof.
  intros N l i a H. apply (coll_set_updated (cell_isEmpty N) (fun x => x) []); auto. now apply proper_cells_some.
Qed.

(** A ring passed to a cell is closed and goes through text; the other rings keep
    their points if text keeps them and they are closed. *)
Lemma pt_same_eq (a b : pt) : pt_same RNum a b = true <-> a = b.
Proof.
  unfold pt_same. rewrite !andb_true_iff.
  change (neqb RNum (px a) (px b)) with (Reqb (px a) (px b)). change (neqb RNum (py a) (py b)) with (Reqb (py a) (py b)).
  change (neqb RNum (pz a) (pz b)) with (Reqb (pz a) (pz b)). rewrite !Reqb_true.
  destruct a as [a1 a2 a3], b as [b1 b2 b3]; cbn [px py pz]. split; [intros [[-> ->] ->]; auto|intros H; injection H; auto].
Qed.

Lemma closeRing_closed (r : line RNum) : closed r -> closeRing RNum r = r.
Proof.
  intros [->|[p [m [->| ->]]]]; auto.
  - unfold closeRing. change (p :: m ++ [p]) with ((p :: m) ++ [p]). rewrite last_last.
    cbn [app]. now rewrite (proj2 (pt_same_eq p p) eq_refl).
  - unfold closeRing; cbn [last]. now rewrite (proj2 (pt_same_eq p p) eq_refl).
Qed.

Theorem closeRing_spec : forall r : line RNum, closed (closeRing RNum r) /\
  (closeRing RNum r = r \/ exists p m, r = p :: m /\ ~ closed r /\ closeRing RNum r = p :: m ++ [p]).
Proof.
  intros [|p m]; [split; [now left|now left]|]. unfold closeRing.
  destruct (pt_same RNum p (last (p :: m) p)) eqn:E.
  - split; [|now left]. apply pt_same_eq in E. right. destruct m as [|b m]; [exists p, []; now right|].
    destruct (exists_last (l := b :: m)) as [m' [z Z]]; [discriminate|]. rewrite Z in *.
    change (p :: m' ++ [z]) with ((p :: m') ++ [z]) in E. rewrite last_last in E. subst z.
    exists p, m'; now left.
  - split; [right; exists p, m; now left|]. right; exists p, m. split; [reflexivity|]. split; [|reflexivity].
    intros C. apply closeRing_closed in C. unfold closeRing in C. rewrite E in C.
    apply (f_equal (@length pt)) in C. rewrite app_length in C; cbn [length] in C. lia.
Qed.

Theorem setGeometry_cell : forall (wkt : pt -> pt) (c : cell RNum) i (r : line RNum),
  proper c -> (forall x, In x c -> closed x /\ forall p, In p x -> wkt p = p) ->
  exists c' r', cell_setGeometry RNum wkt c i r = Ok c' /\ updated [] c i r' c' /\ closed r' /\
    ((forall p, In p r -> wkt p = p) -> closed r -> r' = r).
Proof.
  intros wkt c i r H C.
  assert (F : forall x, (forall p, In p x -> wkt p = p) -> closed x -> closeRing RNum (line_clone RNum wkt x) = x).
  { intros x W K. unfold line_clone. rewrite (map_ext_in wkt (fun p => p)) by (intros; apply W; auto).
    rewrite map_id. now apply closeRing_closed. }
  destruct (coll_set_updated (line_isEmpty RNum) (fun x => closeRing RNum (line_clone RNum wkt x)) [] c i r) as [c' [E U]].
  - now apply proper_some.
  - intros x X. apply C in X as [K W]. now apply F.
  - exists c', (closeRing RNum (line_clone RNum wkt r)). split; [exact E|]. split; [exact U|]. split.
    + apply closeRing_spec.
    + intros W K. now apply F.
Qed.

(** A line or ring: always; points missing before the index become (0, 0, 0). *)
Theorem setGeometry_line : forall (N : Num) (l : line N) i (p : point N),
  exists r, line_setGeometry N l i p = Ok r /\ updated (mkPoint (nofZ N 0) (nofZ N 0) (nofZ N 0)) l i p r.
Proof.
  intros N l i p. unfold line_setGeometry. destruct (i <? length l)%nat eqn:L.
  - apply Nat.ltb_lt in L. destruct (nth_error l i) as [x|] eqn:E; [|apply nth_error_None in E; lia].
    unfold vec_set; rewrite E. eexists; split; [reflexivity|]. 
    assert (FL : length (firstn i l) = i) by (rewrite firstn_length; lia).
    repeat split.
    + rewrite app_length, FL; cbn [length]. rewrite skipn_length. lia.
    + rewrite nth_error_app2, FL, Nat.sub_diag by lia; reflexivity.
    + intros j J1 J2. destruct (Nat.lt_ge_cases j i) as [J|J].
      * rewrite nth_error_app1 by lia. now apply nth_error_firstn_lt.
      * rewrite nth_error_app2, FL by lia. destruct (j - i)%nat as [|k] eqn:K; [lia|]. cbn [nth_error].
        rewrite nth_error_skipn'. f_equal. lia.
    + intros j J; lia.
  - apply Nat.ltb_ge in L. eexists; split; [reflexivity|]. fold (p_default N).
    assert (H : forall n k (x : point N), (k < n)%nat -> nth_error (repeat x n) k = Some x).
    { induction n; intros [|k] x Hk; cbn; auto; try lia. apply IHn; lia. }
    repeat split.
    + rewrite !app_length, repeat_length; cbn [length]; lia.
    + rewrite nth_error_app2 by lia. rewrite nth_error_app2, repeat_length, Nat.sub_diag by (rewrite repeat_length; lia). reflexivity.
    + intros j J1 J2. now rewrite nth_error_app1 by lia.
    + intros j J. rewrite nth_error_app2 by lia. rewrite nth_error_app1 by (rewrite repeat_length; lia). apply H; lia.
Qed.

(** A multi-point: for an existing index; any other is undefined behaviour. *)
Theorem setGeometry_mpoint : forall (N : Num) (l : line N) i (p : point N),
  ((i < length l)%nat -> exists r, mpoint_setGeometry N l i p = Ok r /\ updated p l i p r) /\
  ((length l <= i)%nat -> mpoint_setGeometry N l i p = UB).
Proof.
  intros N l i p; split; intros L.
  - destruct (setGeometry_line N l i p) as [r [E [U1 [U2 [U3 _]]]]]. exists r. unfold line_setGeometry in E.
    rewrite (proj2 (Nat.ltb_lt _ _) L) in E. split; [exact E|]. repeat split; auto. intros j J; lia.
  - unfold mpoint_setGeometry, vec_set. now rewrite (proj2 (nth_error_None _ _) L).
Qed.
Example setGeometry_mpoint_ex : mpoint_setGeometry RNum [mkPoint (N := RNum) 1 2 0; mkPoint (N := RNum) 5 6 0] 1 (mkPoint (N := RNum) 3 4 0) =
  Ok [mkPoint (N := RNum) 1 2 0; mkPoint (N := RNum) 3 4 0].
Proof. reflexivity. Qed.

(** C69 as stated is false: a multi-line or cells whose parts are all empty counts as
    having none, so the new part is appended behind them; and a multi-point cannot
    be extended. *)
Theorem setGeometry_refuted : exists (l : mline RNum) i (a : line RNum) r,
  mline_setGeometry RNum l i a = Ok r /\ nth_error r i <> Some a /\ length r <> Nat.max (length l) (S i).
Proof.
  exists [[]; []], 0%nat, [mkPoint (N := RNum) 1 2 0], [[]; []; [mkPoint (N := RNum) 1 2 0]].
  split; [reflexivity|]. split; [discriminate|]. cbn. lia.
Qed.

Theorem setGeometry_cells_refuted : exists (l : cells RNum) i (a : cell RNum) r,
  cells_setGeometry RNum l i a = Ok r /\ nth_error r i <> Some a /\ length r <> Nat.max (length l) (S i).
Proof.
  exists [[]], 0%nat, [[mkPoint (N := RNum) 1 2 0]], [[]; [[mkPoint (N := RNum) 1 2 0]]].
  split; [reflexivity|]. split; [discriminate|]. cbn. lia.
Qed.

Theorem setGeometry_mpoint_refuted : exists (l : line RNum) i (p : pt), mpoint_setGeometry RNum l i p = UB.
Proof. exists [], 0%nat, (mkPoint (N := RNum) 1 2 0). reflexivity. Qed.

Example setGeometry_mline_ex : mline_setGeometry RNum [[mkPoint (N := RNum) 1 2 0]] 2 [mkPoint (N := RNum) 3 4 0] =
  Ok [[mkPoint (N := RNum) 1 2 0]; []; [mkPoint (N := RNum) 3 4 0]] /\ proper [[mkPoint (N := RNum) 1 2 0]].
Proof. split; [reflexivity|]. right; exists [mkPoint (N := RNum) 1 2 0]; split; [now left|discriminate]. Qed.
Example setGeometry_cells_ex : cells_setGeometry RNum [] 1 [[mkPoint (N := RNum) 3 4 0]] =
  Ok [[]; [[mkPoint (N := RNum) 3 4 0]]] /\ proper_cells (A := pt) [].
Proof. split; [reflexivity|now left]. Qed.
Example setGeometry_cell_ex : exists c' r', 
  cell_setGeometry RNum (fun p => p) [[mkPoint (N := RNum) 1 2 0]] 0 [mkPoint (N := RNum) 3 4 0; mkPoint (N := RNum) 5 4 0] = Ok c' /\
  updated [] [[mkPoint (N := RNum) 1 2 0]] 0 r' c' /\ closed r'.
Proof.
  destruct (setGeometry_cell (fun p => p) [[mkPoint (N := RNum) 1 2 0]] 0 [mkPoint (N := RNum) 3 4 0; mkPoint (N := RNum) 5 4 0])
    as [c' [r' [E [U [C _]]]]].
  - right; exists [mkPoint (N := RNum) 1 2 0]; split; [now left|discriminate].
  - intros x [<-|[]]. split; auto. right. exists (mkPoint (N := RNum) 1 2 0), []. now right.
  - now exists c', r'.
Qed.

(** *** Translation of cells (C68, C136) *)

Lemma cells_image_exact (wkt : pt -> pt) (f : pt -> pt) (im : pt -> pt -> Prop) (c : cells RNum) :
  (forall p, im p (f p)) -> (forall x, In x c -> proper x) -> proper_cells c ->
  (forall x r, In x c -> In r x -> closed r /\ forall p, In p r -> wkt (f p) = f p) ->
  Forall2 (Forall2 (Forall2 im)) c (cells_image RNum wkt f c).
Proof.
  intros I Px Pc H. unfold cells_image, coll_addGeometry. rewrite fold_snoc; cbn [app]. rewrite firstn_coll.
  assert (Cf : forall r, closed r -> closed (map f r)).
  { intros r [->|[p [m [->| ->]]]]; [now left| |]; right.
    - exists (f p), (map f m). left. cbn [map]. now rewrite map_app.
    - exists (f p), []. now right. }
  assert (CI : forall x, In x c -> cell_image RNum wkt f x = map (map f) x).
  { intros x X. unfold cell_image. rewrite firstn_coll.
    change (fun res r => cell_addRing RNum wkt res (line_image RNum f r))
      with (fun res (r : line RNum) => res ++ [closeRing RNum (line_clone RNum wkt (line_image RNum f r))]).
    rewrite fold_snoc; cbn [app].
    replace (if forallb (line_isEmpty RNum) x then [] else x) with x.
    - apply map_ext_in. intros r R_. destruct (H x r X R_) as [K W]. rewrite line_image_map. unfold line_clone.
      rewrite map_map. rewrite (map_ext_in (fun p => wkt (f p)) f) by (intros; apply W; auto).
      apply closeRing_closed. now apply Cf.
    - destruct (proper_some x (Px x X)) as [->| ->]; reflexivity. }
  replace (if forallb (cell_isEmpty RNum) c then [] else c) with c by (destruct (proper_cells_some c Pc) as [->| ->]; reflexivity).
  apply map_Forall2. intros x X. rewrite CI by auto. apply map_Forall2; intros r _. apply map_Forall2; auto.
Qed.

(** Adding a point to cells (with closed rings, none of them dropped, and coordinates
    that the text format keeps) moves every point by exactly that point;
    subtracting moves back. *)
Theorem cells_moved : forall (wkt : pt -> pt) (c : cells RNum) (d : pt),
  (forall x, In x c -> proper x) -> proper_cells c ->
  (forall x r, In x c -> In r x -> closed r) -> (forall p, wkt p = p) ->
  Forall2 (Forall2 (Forall2 (moved d))) c (cells_add RNum wkt c d) /\
  Forall2 (Forall2 (Forall2 (fun p q => moved d q p))) c (cells_sub RNum wkt c d).
Proof.
  intros wkt c d P1 P2 K W. split; (apply cells_image_exact; auto).
  - intros p; repeat split; reflexivity.
  - intros x r X R_; split; eauto.
  - assert (Q : forall x y : R, x = x - y + y) by (intros; ring). intros p. repeat split; unfold p_sub; cbn [px py pz]; apply Q.
  - intros x r X R_; split; eauto.
Qed.

Definition square : cells RNum :=
  [[[mkPoint (N := RNum) 1 1 0; mkPoint (N := RNum) 2 1 0; mkPoint (N := RNum) 2 2 0; mkPoint (N := RNum) 1 1 0]]].
Example cells_moved_ex : Forall2 (Forall2 (Forall2 (moved (mkPoint (N := RNum) 5 6 0)))) square
  (cells_add RNum (fun p => p) square (mkPoint (N := RNum) 5 6 0)).
Proof.
  apply cells_moved; auto.
  - intros x [<-|[]]. right. eexists; split; [now left|discriminate].
  - right. do 2 eexists. split; [now left|]. split; [now left|discriminate].
  - intros x r [<-|[]] [<-|[]]. right. exists (mkPoint (N := RNum) 1 1 0), [mkPoint (N := RNum) 2 1 0; mkPoint (N := RNum) 2 2 0]. now left.
Qed.

(** Without those conditions the translation changes the structure: parts that are
    empty are dropped. *)
Theorem cells_moved_refuted : exists (c : cells RNum) (d : pt),
  length (cells_add RNum (fun p => p) c d) <> length c.
Proof. exists [[]], (mkPoint (N := RNum) 0 0 0). cbn. lia. Qed.

(** *** Splitting (C78) *)

(** The parts after splitting by lines one after the other. *)
Inductive cut_by (difference : cells RNum -> cells RNum -> cells RNum) (strip : line RNum -> cells RNum) :
  list (line RNum) -> cells RNum -> cells RNum -> Prop :=
| cut_none : forall c, cut_by difference strip [] c c
| cut_line : forall l ls c r, cut_by difference strip ls (difference c (strip l)) r -> cut_by difference strip (l :: ls) c r.

(** Splitting by lines removes the strips (width 2e-8) around the lines one after
    the other and does nothing else: the growth of the parts that the code asks for
    has no effect on the result.  It can only make the call fail. *)
Theorem split_sequence : forall difference buffer_line buffer_cell (c : cells RNum) (ls : mline RNum),
  proper ls ->
  (exists r, splitByLines RNum difference buffer_line buffer_cell c ls = Ok r /\
    cut_by difference (fun l => buffer_line l (1 / 100000000)) ls c r) \/
  (exists x, (forall y, buffer_cell x (1 / 100000000 * (1 / 2)) <> Ok y) /\
    (forall r, splitByLines RNum difference buffer_line buffer_cell c ls <> Ok r)).
Proof.
  intros difference buffer_line buffer_cell c ls P.
  unfold splitByLines. rewrite firstn_coll.
  replace (if forallb (line_isEmpty RNum) ls then [] else ls) with ls by (destruct (proper_some ls P) as [->| ->]; reflexivity).
  clear P. revert c; induction ls as [|l ls IH]; intros c; cbn [foldM].
  - left; exists c; split; [reflexivity|constructor].
  - unfold splitByLine at 1 3. set (w := nmul RNum (split_eps RNum) _).
    destruct (for_parts_assign (cell_isEmpty RNum) (fun x => buffer_cell x w) (difference c (buffer_line l (split_eps RNum)))) as [E|[x [_ [B E]]]].
    + rewrite E; cbn [bind]. destruct (IH (difference c (buffer_line l (split_eps RNum)))) as [[r [E' C]]|[x [B E']]].
      * left; exists r; split; auto. constructor. exact C.
      * right; exists x; split; auto.
    + right; exists x; split; [exact B|]. intros r. rewrite E. destruct (buffer_cell x w) as [y|e| |] eqn:Y; try discriminate.
Qed.

(** C78 as stated is false: the parts returned are not the grown ones. *)
Theorem split_growth_refuted : exists difference buffer_line buffer_cell (c : cells RNum) (l : line RNum) r,
  splitByLine RNum difference buffer_line buffer_cell c l = Ok r /\
  ~ Forall2 (fun part part' => exists w, w = 1 / 100000000 * (1 / 2) /\ buffer_cell part w = Ok part')
      (difference c (buffer_line l (1 / 100000000))) r.
Proof.
  exists (fun c _ => c), (fun _ _ => []), (fun _ _ => Ok []), square, [mkPoint (N := RNum) 0 0 0], square.
  split; [reflexivity|]. intros F. inversion F as [|? ? ? ? [w [_ E]] _]; subst. discriminate.
Qed.

Example split_sequence_ex : exists r, 
  splitByLines RNum (fun c s => c ++ s) (fun l _ => [[l]]) (fun x _ => Ok x) square [[mkPoint (N := RNum) 0 0 0]; [mkPoint (N := RNum) 7 7 0]] = Ok r /\ length r = 3%nat.
Proof. eexists; split; [reflexivity|reflexivity]. Qed.

Print Assumptions moveTo_exact.
Print Assumptions moveTo_ignored.
Print Assumptions moveTo_refuted.
Print Assumptions moveTo_all.
Print Assumptions scale_line.
Print Assumptions scale_points.
Print Assumptions scale_cells.
Print Assumptions scale_mline.
Print Assumptions scale_refuted.
Print Assumptions setGeometry_mline.
Print Assumptions setGeometry_cells.
Print Assumptions closeRing_spec.
Print Assumptions setGeometry_cell.
Print Assumptions setGeometry_line.
Print Assumptions setGeometry_mpoint.
Print Assumptions setGeometry_refuted.
Print Assumptions setGeometry_cells_refuted.
Print Assumptions setGeometry_mpoint_refuted.
Print Assumptions cells_moved.
Print Assumptions cells_moved_refuted.
Print Assumptions split_sequence.
Print Assumptions split_growth_refuted.
