(** Proofs about the decomposition of cells. *)
From Coq Require Import List Arith Lia ZArith Bool Reals Lra.
From Verif Require Import Outcome Num ListAux Point_Model Angle_Model Angle_Spec Angle_Proofs SwathGen_Model
  Container_Model Container_Spec Container_Proofs Border_Model Border_Spec Border_Proofs Container_Props Decomp_Model Decomp_Spec.
Import ListNotations.
Open Scope R_scope.

(** *** Lines on the ring *)
Lemma p_eq_close (p q : pt) : p_eq RNum p q = true <-> close p q.
Proof.
  destruct (p_ne_close p q) as [[E C]|[E C]]; unfold p_ne in E; destruct (p_eq RNum p q); cbn [negb] in E;
    try discriminate; split; intros; auto; try discriminate; contradiction.
Qed.


Lemma edge_nth (ring : list pt) a b : edge_like ring a b <-> exists i x y,
  nth_error ring i = Some x /\ nth_error ring (i + 1) = Some y /\ ((close a x /\ close b y) \/ (close a y /\ close b x)).
Proof.
  split.
  - intros [pre [x [y [post [-> C]]]]]. exists (length pre), x, y. split; [|split; [|exact C]].
    + now rewrite nth_error_app2, Nat.sub_diag by lia.
    + rewrite nth_error_app2 by lia. now replace (length pre + 1 - length pre)%nat with 1%nat by lia.
  - intros [i [x [y [X [Y C]]]]]. apply nth_error_split in X as [pre [post [-> E]]].
    rewrite nth_error_app2 in Y by lia. replace (i + 1 - length pre)%nat with 1%nat in Y by lia.
    destruct post as [|z post]; [discriminate|]. injection Y as ->. exists pre, x, y, post. auto.
Qed.

Lemma matches_edge_spec ring (line : list pt) s e i x y : nth_error line 0 = Some s -> nth_error line (length line - 1) = Some e ->
  nth_error ring i = Some x -> nth_error ring (i + 1) = Some y ->
  exists b, matches_edge ring line i = Ok b /\ (b = true <-> (close s x /\ close e y) \/ (close s y /\ close e x)).
Proof.
  intros S0 E0 X Y. unfold matches_edge, line_startPoint, line_endPoint, line_getGeometry, vec_at.
  rewrite X, Y, S0, E0; cbn [bind]. eexists; split; [reflexivity|].
  rewrite orb_true_iff, !andb_true_iff, !p_eq_close. tauto.
Qed.

Lemma some_edge_spec ring (line : list pt) s e : nth_error line 0 = Some s -> nth_error line (length line - 1) = Some e ->
  forall is, (forall i, In i is -> (i + 1 < length ring)%nat) ->
  exists b, some_edge ring line is = Ok b /\ (b = true <-> exists i x y, In i is /\
    nth_error ring i = Some x /\ nth_error ring (i + 1) = Some y /\ ((close s x /\ close e y) \/ (close s y /\ close e x))).
Proof.
  intros S0 E0. induction is as [|i is IH]; intros L.
  - exists false. split; [reflexivity|]. split; [discriminate|]. intros [i [x [y [[] _]]]].
  - cbn [some_edge]. assert (Li : (i + 1 < length ring)%nat) by (apply L; now left).
    destruct (nth_error ring i) as [x|] eqn:X; [|apply nth_error_None in X; lia].
    destruct (nth_error ring (i + 1)) as [y|] eqn:Y; [|apply nth_error_None in Y; lia].
    destruct (matches_edge_spec ring line s e i x y S0 E0 X Y) as [b [-> B]]. cbn [bind]. destruct b.
    + exists true. split; [reflexivity|]. split; [|reflexivity]. intros _. exists i, x, y.
      split; [now left|]. split; [exact X|split; [exact Y|now apply B]].
    + destruct IH as [b [-> C]]; [intros; apply L; now right|]. exists b. split; [reflexivity|]. rewrite C. split.
      * intros [j [x' [y' [J K]]]]. exists j, x', y'. split; [now right|exact K].
      * intros [j [x' [y' [[<-|J] [X' [Y' K]]]]]]; [|exists j, x', y'; auto].
        rewrite X in X'; rewrite Y in Y'. injection X' as <-; injection Y' as <-. apply B in K; discriminate.
Qed.

Lemma part_spec ring (line : list pt) : exists b, isLinePartOfLinearRing ring line = Ok b /\
  (b = true <-> exists s e, nth_error line 0 = Some s /\ nth_error line (length line - 1) = Some e /\ edge_like ring s e).
Proof.
  unfold isLinePartOfLinearRing. destruct (length ring =? 0)%nat eqn:R0; cbn [orb].
  - exists false. split; [reflexivity|]. split; [discriminate|]. intros [s [e [_ [_ [pre [x [y [post [E _]]]]]]]]].
    apply Nat.eqb_eq in R0. rewrite E, app_length in R0; cbn in R0; lia.
  - destruct line as [|s line]; cbn [length].
    + exists false. split; [reflexivity|]. split; [discriminate|]. intros [s [e [X _]]]; discriminate.
    + cbn [Nat.eqb]. destruct (nth_error (s :: line) (length (s :: line) - 1)) as [e|] eqn:E0.
      2:{ apply nth_error_None in E0. cbn [length] in E0. lia. }
      destruct (some_edge_spec ring (s :: line) s e eq_refl E0 (seq 0 (length ring - 1))) as [b [-> B]].
      { intros i I. apply in_seq in I. lia. }
      exists b. split; [reflexivity|]. rewrite B. split.
      * intros [i [x [y [_ K]]]]. exists s, e. split; [reflexivity|]. split; [exact E0|]. apply edge_nth. exists i, x, y; exact K.
      * intros [s' [e' [S' [E' K]]]]. injection S' as <-. change (length (s :: line) - 1)%nat with (S (length line) - 1)%nat in E0. rewrite E0 in E'. injection E' as <-. apply edge_nth in K as [i [x [y [X [Y K]]]]].
        exists i, x, y. split; [|auto]. apply in_seq. assert (nth_error ring (i + 1) <> None) by (rewrite Y; discriminate).
        apply nth_error_Some in H. lia.
Qed.

Lemma part_pair ring (a b : pt) : exists t, isLinePartOfLinearRing ring [a; b] = Ok t /\ (t = true <-> edge_like ring a b).
Proof.
  destruct (part_spec ring [a; b]) as [t [E T]]. exists t. split; auto. rewrite T. split.
  - intros [s [e [X [Y K]]]]. cbn in X, Y. injection X as <-; injection Y as <-. exact K.
  - intros K. exists a, b. split; [reflexivity|split; [reflexivity|exact K]].
Qed.

(** *** Points of cells *)
Lemma parts_fold {A B S} (isEmpty : A -> bool) (items : A -> list B) (f : S -> B -> S) (l : list A) s :
  (forall x, isEmpty x = true -> items x = []) ->
  fold_left (fun s x => fold_left f (items x) s) (parts isEmpty l) s = fold_left f (flat_map items l) s.
Proof.
  intros Z. unfold parts. rewrite firstn_coll. destruct (forallb isEmpty l) eqn:E.
  - rewrite forallb_forall in E. replace (flat_map items l) with (@nil B); [reflexivity|]. symmetry.
    induction l as [|x l IH]; auto. cbn [flat_map]. rewrite Z by (apply E; now left). apply IH. intros; apply E; now right.
  - clear E. revert s; induction l as [|x l IH]; intros s; auto. cbn [fold_left flat_map]. now rewrite fold_left_app, IH.
Qed.

Lemma parts_foldM {A B S} (isEmpty : A -> bool) (items : A -> list B) (f : S -> B -> outcome S) (l : list A) s :
  (forall x, isEmpty x = true -> items x = []) ->
  foldM (fun s x => foldM f (items x) s) (parts isEmpty l) s = foldM f (flat_map items l) s.
Proof.
  intros Z. unfold parts. rewrite firstn_coll. destruct (forallb isEmpty l) eqn:E.
  - rewrite forallb_forall in E. replace (flat_map items l) with (@nil B); [reflexivity|]. symmetry.
    induction l as [|x l IH]; auto. cbn [flat_map]. rewrite Z by (apply E; now left). apply IH. intros; apply E; now right.
  - clear E. revert s; induction l as [|x l IH]; intros s; auto. cbn [foldM flat_map]. rewrite foldM_app.
    destruct (foldM f (items x) s); cbn [bind]; auto.
Qed.

Lemma line_empty_nil (l : list rpoint) : line_isEmpty RNum l = true -> l = [].
Proof. now destruct l. Qed.

Lemma cell_empty_nil (c : rcell) : cell_isEmpty RNum c = true -> concat c = [].
Proof.
  unfold cell_isEmpty. rewrite forallb_forall. induction c as [|l c IH]; auto. intros E. cbn [concat].
  rewrite (line_empty_nil l) by (apply E; now left). apply IH. intros; apply E; now right.
Qed.

Lemma fold_left_ext {A S} (f g : S -> A -> S) : (forall s x, f s x = g s x) -> forall l s, fold_left f l s = fold_left g l s.
Proof. intros E; induction l as [|x l IH]; intros s; auto. cbn [fold_left]. now rewrite E. Qed.

Lemma foldM_ext {A S} (f g : S -> A -> outcome S) : (forall s x, f s x = g s x) -> forall l s, foldM f l s = foldM g l s.
Proof. intros E; induction l as [|x l IH]; intros s; auto. cbn [foldM]. rewrite E. destruct (g s x); cbn [bind]; auto. Qed.

Lemma foldM_map {A B S} (f : S -> B -> outcome S) (h : A -> B) : forall l s, foldM f (map h l) s = foldM (fun s x => f s (h x)) l s.
Proof. induction l as [|x l IH]; intros s; auto. cbn [foldM map]. destruct (f s (h x)); cbn [bind]; auto. Qed.

(** *** Trapezoidal lines *)
Lemma trapezoidal_list inter touches within ang cells :
  trapezoidal_genSplitLines inter touches within ang cells =
  fold_left (trapezoidal_at inter touches within ang cells) (vertices cells) [].
Proof.
  unfold trapezoidal_genSplitLines, vertices.
  rewrite (fold_left_ext _ (fun lines cell => fold_left (trapezoidal_at inter touches within ang cells) (concat cell) lines)).
  - rewrite parts_fold by exact cell_empty_nil. now rewrite flat_map_concat_map.
  - intros s x. pose proof (parts_fold (line_isEmpty RNum) (fun l : list rpoint => l) (trapezoidal_at inter touches within ang cells) x s line_empty_nil) as E.
    cbv beta in E. rewrite E. now rewrite flat_map_concat_map, map_id.
Qed.

Lemma trapezoidal_fold inter touches within ang cells : forall ps lines,
  fold_left (trapezoidal_at inter touches within ang cells) ps lines =
  lines ++ flat_map (fun p => [cells_createLineUntilBorder inter touches within cells p ang;
                               cells_createLineUntilBorder inter touches within cells p (ang + PI)]) ps.
Proof.
  induction ps as [|p ps IH]; intros lines; cbn [fold_left flat_map]; [now rewrite app_nil_r|].
  rewrite IH. unfold trapezoidal_at, coll_addGeometry. now rewrite <- !app_assoc.
Qed.

Lemma pairs_nth {A B} (f g : A -> B) : forall l k x, nth_error l k = Some x ->
  nth_error (flat_map (fun x => [f x; g x]) l) (2 * k) = Some (f x) /\
  nth_error (flat_map (fun x => [f x; g x]) l) (2 * k + 1) = Some (g x).
Proof.
  induction l as [|y l IH]; intros [|k] x E; cbn in E; try discriminate.
  - injection E as <-. split; reflexivity.
  - apply IH in E as [E1 E2]. cbn [flat_map app]. 
    replace (2 * S k)%nat with (S (S (2 * k))) by lia. replace (S (S (2 * k)) + 1)%nat with (S (S (2 * k + 1))) by lia.
    split; cbn [nth_error]; assumption.
Qed.

Lemma pairs_length {A B} (f g : A -> B) : forall l, length (flat_map (fun x => [f x; g x]) l) = (2 * length l)%nat.
Proof. induction l as [|y l IH]; auto. cbn [flat_map app length]. rewrite IH. lia. Qed.

(** *** Sliding over edges *)
Definition crossings (inter : list (list rpoint) -> rcell -> list (list rpoint)) (c : rcell) (ang : R) (p : pt) : list pt :=
  concat (inter [cell_createSemiLongLine c p ang] c).

Lemma max_above : 2 ^ 1023 <= dbl_max.
Proof.
  unfold dbl_max. assert (A : 1 <= 2 - / 2 ^ 52).
  { assert (/ 2 ^ 52 <= / 1). { apply Rinv_le_contravar; [lra|]. apply pow_R1_Rle; lra. } lra. }
  assert (B : 0 < 2 ^ 1023) by (apply pow_lt; lra). apply Rle_trans with (1 * 2 ^ 1023); [lra|].
  apply Rmult_le_compat_r; lra.
Qed.

Lemma until inter c ang (p : pt) : before ang (crossings inter c ang p) p ->
  (cell_createLineUntilBorder inter c p ang = [] /\ no_crossing (crossings inter c ang p) p) \/
  (exists q, cell_createLineUntilBorder inter c p ang = [p; q] /\ first_crossing (crossings inter c ang p) p q).
Proof.
  intros B. apply (until_border inter c p ang (crossings inter c ang p) eq_refl).
  intros r I. destruct (B r I) as [L _]. pose proof max_above. unfold p_distance.
  apply Rlt_le_trans with (2 ^ 1023); [exact L|assumption].
Qed.

Definition proj (ang : R) (p : pt) : R := px p * cos ang + py p * sin ang.

Lemma proj_close ang (p q : pt) : close p q -> proj ang p <= proj ang q + 2 / 10000000.
Proof.
  intros [X [Y _]]. unfold proj. pose proof (COS_bound ang). pose proof (SIN_bound ang).
  assert (G : forall a b d t : R, Rabs (a - b) < d -> -1 <= t <= 1 -> a * t <= b * t + d).
  { intros a b d t A T. apply Rabs_def2 in A as [A1 A2]. assert ((a - b) * t <= d); [|lra].
    destruct (Rle_dec 0 t) as [T0|T0].
    - apply Rle_trans with (d * t); [apply Rmult_le_compat_r; lra|]. apply Rle_trans with (d * 1); [apply Rmult_le_compat_l; lra|lra].
    - replace ((a - b) * t) with ((b - a) * - t) by ring.
      apply Rle_trans with (d * - t); [apply Rmult_le_compat_r; lra|]. apply Rle_trans with (d * 1); [apply Rmult_le_compat_l; lra|lra]. }
  pose proof (G _ _ _ (cos ang) X H) as G1. pose proof (G _ _ _ (sin ang) Y H0) as G2.
  assert (T : forall a b c d e : R, a <= c + e -> b <= d + e -> a + b <= c + d + (e + e)) by (intros; lra).
  eapply Rle_trans; [apply T; [exact G1|exact G2]|]. apply Rplus_le_compat_l. lra.
Qed.

Lemma proj_bound ang : forall ring : list pt, exists m, forall x, In x ring -> proj ang x <= m.
Proof.
  induction ring as [|p ring [m M]]; [exists 0; intros x []|].
  exists (Rmax (proj ang p) m). intros x [<-|I]; [apply Rmax_l|]. eapply Rle_trans; [now apply M|apply Rmax_r].
Qed.

Lemma slide_ends inter c ring ang m : (forall p, before ang (crossings inter c ang p) p) ->
  (forall x, In x ring -> proj ang x <= m) ->
  forall n (p : pt), m + 2 / 10000000 - proj ang p < INR n * (/ 200000) ->
  exists l, leaves_edges (crossings inter c ang) ring p l /\
    forall fuel, (n < fuel)%nat -> slide inter fuel c ring ang (cell_createLineUntilBorder inter c p ang) = Ok l.
Proof.
  intros B M. induction n as [|n IH]; intros p P.
  all: destruct (until inter c ang p (B p)) as [[E N]|[q [E F]]].
  1,3: exists []; split; [exists p; split; [constructor|left; auto]|];
    intros [|fuel] L; [lia|]; cbn [slide]; rewrite E; destruct (part_spec ring []) as [b [Eb Tb]]; rewrite Eb; cbn [bind];
    destruct b; [exfalso; destruct (proj1 Tb eq_refl) as [s [e [X _]]]; discriminate|reflexivity].
  all: destruct (part_pair ring p q) as [b [Eb Tb]].
  all: destruct b; [|exists [p; q]; split;
    [exists p; split; [constructor|right; exists q; split; [reflexivity|split; [exact F|intros K; apply Tb in K; discriminate]]]|
     intros [|fuel] L; [lia|]; cbn [slide]; rewrite E, Eb; reflexivity]].
  all: assert (K : edge_like ring p q) by now apply Tb.
  all: assert (Q : proj ang q <= m + 2 / 10000000) by
    (destruct K as [pre [x [y [post [-> [[_ C]|[_ C]]]]]]]; eapply Rle_trans; try (apply (proj_close _ _ _ C)); apply Rplus_le_compat_r; apply M;
     apply in_or_app; right; cbn [In]; auto).
  all: assert (A : proj ang p + / 200000 < proj ang q).
  1,3: (destruct F as [l1 [l2 [El [D _]]]];
     destruct (B p q ltac:(rewrite El; apply in_or_app; right; now left)) as [_ G]; specialize (G D); 
     clear -G D; unfold proj;
     assert (T : forall d a b a' b' c s : R, / 100000 < d -> d <= 2 * ((a - a') * c + (b - b') * s) -> a' * c + b' * s + / 200000 < a * c + b * s) by
       (intros; lra); exact (T _ _ _ _ _ _ _ D G)).
  - cbn [INR] in P. exfalso. lra.
  - rewrite S_INR in P. destruct (IH q) as [l [[a [Aa La]] H]]; [lra|]. exists l. split.
    + exists a. split; [|exact La]. apply along_edge with q; auto.
    + intros [|fuel] L; [lia|]. cbn [slide]. rewrite E, Eb; cbn [bind]. unfold line_endPoint, line_getGeometry, vec_at; cbn [length Nat.sub nth_error bind].
      apply H; lia.
Qed.

Lemma leaves_length cr ring (p : pt) l : leaves_edges cr ring p l ->
  (l = [] /\ Rltb (/ 100000) (line_length l) = false) \/ (l <> [] /\ Rltb (/ 100000) (line_length l) = true).
Proof.
  intros [a [_ [[-> _]|[b [-> [[l1 [l2 [_ [D _]]]] _]]]]]].
  - left; split; auto. apply Rltb_false. cbn [line_length]. lra.
  - right; split; [discriminate|]. apply Rltb_true. cbn [line_length]. rewrite Rplus_0_r. unfold p_distance.
    replace (dist2 b a) with (dist2 a b) in D; [exact D|].
    unfold dist2. assert (T : forall x y z w : R, (x - y) * (x - y) + (z - w) * (z - w) = (y - x) * (y - x) + (w - z) * (w - z)) by (intros; ring). apply T.
Qed.

Lemma steps_enough (x : R) : exists n, x < INR n * / 200000.
Proof.
  destruct (archimed (x * 200000)) as [N _]. destruct (Z_lt_le_dec (up (x * 200000)) 0) as [L|L].
  - exists 0%nat. apply IZR_lt in L. cbn [INR]. lra.
  - exists (Z.to_nat (up (x * 200000))). rewrite INR_IZR_INZ, Z2Nat.id by exact L.
    apply Rmult_lt_reg_r with 200000; [lra|]. rewrite Rmult_assoc, Rinv_l by lra. lra.
Qed.

Lemma at_spec inter c ring ang (p : pt) :
  (forall q, before ang (crossings inter c ang q) q) -> (forall q, before (ang + PI) (crossings inter c (ang + PI) q) q) ->
  exists n ls, both_sides (crossings inter c ang) (crossings inter c (ang + PI)) ring p ls /\
    forall fuel lines, (n < fuel)%nat -> boustrophedon_at inter fuel ang c ring lines p = Ok (lines ++ ls).
Proof.
  intros B B'. destruct (proj_bound ang ring) as [m M]. destruct (proj_bound (ang + PI) ring) as [m' M'].
  destruct (steps_enough (m + 2 / 10000000 - proj ang p)) as [n N].
  destruct (steps_enough (m' + 2 / 10000000 - proj (ang + PI) p)) as [n' N'].
  destruct (slide_ends inter c ring ang m B M n p N) as [l1 [L1 E1]].
  destruct (slide_ends inter c ring (ang + PI) m' B' M' n' p N') as [l2 [L2 E2]].
  exists (Nat.max n n').
  destruct (leaves_length _ _ _ _ L1) as [[Z1 T1]|[Z1 T1]]; destruct (leaves_length _ _ _ _ L2) as [[Z2 T2]|[Z2 T2]].
  4: exists [l1; l2]. 1,2,3: exists [].
  all: split; [exists l1, l2; split; [exact L1|]; split; [exact L2|]; tauto|].
  all: intros fuel lines F; unfold boustrophedon_at; rewrite E1, E2 by lia; cbn [bind]; rewrite T1, T2; cbn [andb];
    rewrite ?app_nil_r; unfold coll_addGeometry; rewrite <- ?app_assoc; reflexivity.
Qed.

Lemma boustrophedon_list inter fuel ang cells :
  boustrophedon_genSplitLines inter fuel ang cells =
  foldM (fun lines (x : rcell * list rpoint * rpoint) => boustrophedon_at inter fuel ang (fst (fst x)) (snd (fst x)) lines (snd x)) (placed cells) [].
Proof.
  unfold boustrophedon_genSplitLines, placed.
  rewrite (foldM_ext _ (fun lines cell => foldM (fun lines (x : rcell * list rpoint * rpoint) => boustrophedon_at inter fuel ang (fst (fst x)) (snd (fst x)) lines (snd x))
    (flat_map (fun ring => map (fun p => (cell, ring, p)) ring) cell) lines)).
  - rewrite parts_foldM; [reflexivity|]. intros c E. unfold cell_isEmpty in E. rewrite forallb_forall in E.
    enough (H : forall c' : list (list rpoint), (forall l, In l c' -> line_isEmpty RNum l = true) -> flat_map (fun ring => map (fun p => (c, ring, p)) ring) c' = []) by (apply H; exact E).
    clear. induction c' as [|l c' IH]; auto. intros E. cbn [flat_map]. rewrite (line_empty_nil l) by (apply E; now left). apply IH. intros; apply E; now right.
  - intros s x. rewrite (foldM_ext _ (fun lines ring => foldM (fun lines (x : rcell * list rpoint * rpoint) => boustrophedon_at inter fuel ang (fst (fst x)) (snd (fst x)) lines (snd x))
      (map (fun p => (x, ring, p)) ring) lines)).
    + apply parts_foldM. intros l E. now rewrite (line_empty_nil l E).
    + intros s' l. rewrite foldM_map. reflexivity.
Qed.

Definition chunk_ok inter ang (x : rcell * list rpoint * rpoint) (ls : list (list rpoint)) : Prop :=
  both_sides (crossings inter (fst (fst x)) ang) (crossings inter (fst (fst x)) (ang + PI)) (snd (fst x)) (snd x) ls.

Lemma boustrophedon_fold inter ang : forall xs : list (rcell * list rpoint * rpoint),
  (forall x, In x xs -> forall q, before ang (crossings inter (fst (fst x)) ang q) q /\ before (ang + PI) (crossings inter (fst (fst x)) (ang + PI) q) q) ->
  exists n chunks, Forall2 (chunk_ok inter ang) xs chunks /\
    forall fuel lines, (n < fuel)%nat ->
      foldM (fun lines (x : rcell * list rpoint * rpoint) => boustrophedon_at inter fuel ang (fst (fst x)) (snd (fst x)) lines (snd x)) xs lines = Ok (lines ++ concat chunks).
Proof.
  induction xs as [|x xs IH]; intros B.
  - exists 0%nat, []. split; [constructor|]. intros; cbn [foldM concat]. now rewrite app_nil_r.
  - destruct IH as [n [ch [F E]]]; [intros; apply B; now right|].
    destruct (at_spec inter (fst (fst x)) (snd (fst x)) ang (snd x)) as [n' [ls [L E']]];
      [intros q; apply (B x (or_introl eq_refl) q)|intros q; apply (B x (or_introl eq_refl) q)|].
    exists (Nat.max n n'), (ls :: ch). split; [constructor; auto|]. intros fuel lines H. cbn [foldM]. rewrite E' by lia. cbn [bind].
    rewrite E by lia. cbn [concat]. now rewrite <- app_assoc.
Qed.

Lemma placed_cell (cells : list rcell) x : In x (placed cells) -> In (fst (fst x)) cells.
Proof.
  unfold placed. intros I. apply in_flat_map in I as [c [C I]]. apply in_flat_map in I as [r [_ I]].
  apply in_map_iff in I as [p [<- _]]. exact C.
Qed.

(** *** Splitting *)
Lemma cut_covers (covers : list rcell -> pt -> Prop) difference strip :
  (forall a b p, covers (difference a b) p <-> covers a p /\ ~ covers b p) ->
  forall ls c r, Container_Props.cut_by difference strip ls c r ->
  forall p, covers r p <-> covers c p /\ forall l, In l ls -> ~ covers (strip l) p.
Proof.
  intros D ls c r C; induction C as [c|l ls c r C IH]; intros p.
  - split; [intros H; split; auto; intros l []|intros [H _]; exact H].
  - rewrite IH, D. split.
    + intros [[H1 H2] H3]. split; auto. intros x [<-|X]; auto.
    + intros [H1 H2]. split; [split; auto; apply H2; now left|]. intros x X; apply H2; now right.
Qed.
