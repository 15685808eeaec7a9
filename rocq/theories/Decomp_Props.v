(** Theorems about the decomposition of cells. *)
From Coq Require Import List Arith Lia ZArith Bool Reals Lra.
From Verif Require Import Outcome Num ListAux Point_Model Angle_Model Angle_Spec SwathGen_Model SwathGen_Spec SwathGen_Proofs
  Container_Model Container_Spec Container_Proofs Container_Props Border_Model Border_Spec Border_Proofs Border_Props
  Decomp_Model Decomp_Spec Decomp_Proofs.
Import ListNotations.
Open Scope R_scope.

(** The angle set is the angle got; a new object splits along angle 0. *)
Theorem split_angle_kept : forall d ang, getSplitAngle (setSplitAngle d ang) = ang /\
  d_kind (setSplitAngle d ang) = d_kind d /\ forall k, getSplitAngle (decomp_new k) = 0 /\ d_kind (decomp_new k) = k.
Proof. intros d ang. repeat split. Qed.

Example split_angle_kept_ex : getSplitAngle (setSplitAngle (decomp_new BoustrophedonD) 2) = 2 /\ getSplitAngle (decomp_new BoustrophedonD) <> 2.
Proof. split; [reflexivity|]. cbn. lra. Qed.

(** The test whether a line is an edge of a ring never fails, and answers yes exactly
    when the ends of the line are those of an edge, up to 1e-7 and in either order. *)
Theorem edge_test : forall (ring line : list pt), exists b, isLinePartOfLinearRing ring line = Ok b /\
  (b = true <-> exists s e, (exists m, line = s :: m) /\ (exists m, line = m ++ [e]) /\ edge_like ring s e).
Proof.
  intros ring line. destruct (part_spec ring line) as [b [E B]]. exists b. split; [exact E|]. rewrite B. split.
  - intros [s [e [X [Y K]]]]. exists s, e. split; [|split; [|exact K]].
    + destruct line as [|z m]; [discriminate|]. injection X as ->. now exists m.
    + apply nth_error_split in Y as [m [l [-> L]]]. rewrite app_length in L. cbn [length] in L.
      destruct l as [|z l]; [now exists m|]. cbn [length] in L. lia.
  - intros [s [e [[m Em] [[m' Em'] K]]]]. exists s, e. split; [now rewrite Em|]. split; [|exact K].
    rewrite Em', app_length. cbn [length]. replace (length m' + 1 - 1)%nat with (length m') by lia.
    now rewrite nth_error_app2, Nat.sub_diag by lia.
Qed.

Example edge_test_ex : let p x y := mkPoint (N := RNum) x y 0 in
  isLinePartOfLinearRing [p 0 0; p 4 0; p 0 4; p 0 0] [p 0 4; p 7 7; p 4 0] = Ok true /\
  isLinePartOfLinearRing [p 0 0; p 4 0; p 0 4; p 0 0] [] = Ok false.
Proof.
  intros p. split; [|reflexivity].
  destruct (edge_test [p 0 0; p 4 0; p 0 4; p 0 0] [p 0 4; p 7 7; p 4 0]) as [b [-> B]].
  f_equal. apply B. exists (p 0 4), (p 4 0). split; [eexists; reflexivity|]. split; [now exists [p 0 4; p 7 7]|].
  exists [p 0 0], (p 4 0), (p 0 4), [p 0 0]. split; [reflexivity|]. right.
  assert (Z : forall x : R, Rabs (x - x) < / 10000000) by (intros x; replace (x - x) with 0 by ring; rewrite Rabs_R0; lra).
  split; repeat split; apply Z.
Qed.

(** *** Trapezoidal lines *)
Section TrapezoidProofs.
  Variable inter : list (list rpoint) -> rcell -> list (list rpoint).
  Variable touches inside : rpoint -> rcell -> bool.

  Lemma cells_ray (cells : list rcell) (p : pt) ang : In p (vertices cells) ->
    exists x, first_at (fun p c => touches p c = true \/ inside p c = true) cells p x /\
      cells_createLineUntilBorder inter touches inside cells p ang = cell_createLineUntilBorder inter x p ang.
  Proof.
    intros V. unfold cells_createLineUntilBorder.
    assert (P : proper_cells cells).
    { right. unfold vertices in V. apply in_concat in V as [l [L V]]. apply in_map_iff in L as [c [<- C]].
      apply in_concat in V as [r [Rr V]]. exists c, r. repeat split; auto. intros ->; destruct V. }
    destruct (cell_at_point touches inside cells p P) as [[pre [x [post [E [T [N G]]]]]]|[N G]]; rewrite G.
    - exists x. split; [|reflexivity]. left. exists pre, post. split; [exact E|]. split; [now apply orb_true_iff|].
      intros y Y A. apply orb_true_iff in A. rewrite (N y Y) in A. discriminate.
    - exists []. split; [|reflexivity]. right. split; [reflexivity|]. intros y Y A. apply orb_true_iff in A. rewrite (N y Y) in A. discriminate.
  Qed.
End TrapezoidProofs.

(** The trapezoidal decomposition draws two lines from every vertex of every ring, the
    (2k)-th and the (2k+1)-th from the k-th vertex, in the split angle and opposite to
    it, each up to the first crossing with the first cell at the vertex. *)
Theorem trapezoid_lines : forall inter touches inside fuel d ang (cells : list rcell),
  d_kind d = Trapezoidal ->
  exists lines, genSplitLines inter touches inside fuel (setSplitAngle d ang) cells = Ok lines /\
  length lines = (2 * length (vertices cells))%nat /\
  forall k p, nth_error (vertices cells) k = Some p ->
    exists x l1 l2, first_at (fun p c => touches p c = true \/ inside p c = true) cells p x /\
      nth_error lines (2 * k) = Some l1 /\ nth_error lines (2 * k + 1) = Some l2 /\
      ((forall r, In r (crossings inter x ang p) -> R_sqrt.sqrt (dist2 r p) < 2 ^ 1023) -> ray_line (crossings inter x ang p) p l1) /\
      ((forall r, In r (crossings inter x (ang + PI) p) -> R_sqrt.sqrt (dist2 r p) < 2 ^ 1023) ->
       ray_line (crossings inter x (ang + PI) p) p l2).
Proof.
  intros inter touches inside fuel d ang cells K. unfold genSplitLines. change (d_kind (setSplitAngle d ang)) with (d_kind d). rewrite K.
  eexists; split; [reflexivity|]. rewrite trapezoidal_list, trapezoidal_fold; cbn [app]. split; [apply pairs_length|].
  intros k p V. destruct (pairs_nth (fun p => cells_createLineUntilBorder inter touches inside cells p (d_angle (setSplitAngle d ang)))
    (fun p => cells_createLineUntilBorder inter touches inside cells p (d_angle (setSplitAngle d ang) + PI)) _ _ _ V) as [E1 E2].
  change (d_angle (setSplitAngle d ang)) with ang in *.
  pose proof (nth_error_In _ _ V) as I. destruct (cells_ray inter touches inside cells p ang I) as [x [F X1]].
  exists x. do 2 eexists. split; [exact F|]. split; [exact E1|]. split; [exact E2|].
  assert (X2 : cells_createLineUntilBorder inter touches inside cells p (ang + PI) = cell_createLineUntilBorder inter x p (ang + PI)).
  { unfold cells_createLineUntilBorder in *. f_equal.
    assert (P : proper_cells cells).
    { right. unfold vertices in I. apply in_concat in I as [l [L I]]. apply in_map_iff in L as [c [<- C]].
      apply in_concat in I as [r [Rr I]]. exists c, r. repeat split; auto. intros ->; destruct I. }
    destruct (cell_at_point touches inside cells p P) as [[pre [y [post [E [T [N G]]]]]]|[N G]]; rewrite G;
      destruct F as [[pre' [post' [E' [T' N']]]]|[-> N']].
    - assert (Q : forall (pre pre' : list rcell) y x post post', pre ++ y :: post = pre' ++ x :: post' ->
        (touches p y || inside p y = true) -> (touches p x = true \/ inside p x = true) ->
        (forall z, In z pre -> touches p z || inside p z = false) -> (forall z, In z pre' -> ~ (touches p z = true \/ inside p z = true)) -> y = x).
      { clear. induction pre as [|a pre IH]; intros [|a' pre'] y x post post' H Ty Tx N N'; cbn [app] in H; injection H as -> H; auto.
        - exfalso. apply (N' a'); [now left|]. now apply orb_true_iff.
        - apply orb_true_iff in Tx. rewrite (N x) in Tx by now left. discriminate.
        - apply (IH pre' y x post post' H Ty Tx); intros; [apply N|apply N']; now right. }
      rewrite E in E'. exact (Q _ _ _ _ _ _ E' T T' N N').
    - exfalso. apply (N' y); [rewrite E; apply in_or_app; right; now left|]. now apply orb_true_iff.
    - exfalso. assert (Ix : In x cells) by (rewrite E'; apply in_or_app; right; now left). apply orb_true_iff in T'. rewrite (N x Ix) in T'. discriminate.
    - reflexivity. }
  rewrite X1, X2. pose proof max_above as MX. split; intros D.
  - destruct (until_border inter x p ang (crossings inter x ang p) eq_refl) as [[E N]|[q [E C]]].
    + intros r Ir. eapply Rlt_le_trans; [exact (D r Ir)|exact MX].
    + left; split; [exact E|exact N].
    + right; exists q; split; [exact E|exact C].
  - destruct (until_border inter x p (ang + PI) (crossings inter x (ang + PI) p) eq_refl) as [[E N]|[q [E C]]].
    + intros r Ir. eapply Rlt_le_trans; [exact (D r Ir)|exact MX].
    + left; split; [exact E|exact N].
    + right; exists q; split; [exact E|exact C].
Qed.

(** A geometry library for examples with horizontal rays: the vertices of the cell that
    the ray meets, up to distance 100. *)
Definition row (ls : list (list rpoint)) (c : rcell) : list (list rpoint) :=
  match ls with
  | [[p; q]] => [filter (fun r : rpoint => Rleb (py r) (py p) && Rleb (py p) (py r) &&
                         Rltb 0 ((px r - px p) * (px q - px p)) && Rltb (Rabs (px r - px p)) 100) (concat c)]
  | _ => []
  end.
Definition at_vertex (p : rpoint) (c : rcell) : bool :=
  existsb (fun r : rpoint => Rleb (px r) (px p) && Rleb (px p) (px r) && Rleb (py r) (py p) && Rleb (py p) (py r)) (concat c).
Definition xy (x y : R) : rpoint := mkPoint (N := RNum) x y 0.

Lemma Rleb_true' a b : Rleb a b = true <-> a <= b.
Proof. unfold Rleb. destruct (Rle_dec a b); split; intros; auto; try discriminate; contradiction. Qed.

Lemma row_in c ang (p r : pt) : In r (crossings row c ang p) <-> In r (concat c) /\ py r = py p /\
  0 < (px r - px p) * (cell_getMinSafeLength c * cos ang) /\ Rabs (px r - px p) < 100.
Proof.
  unfold crossings, row, cell_createSemiLongLine. cbn [concat]. rewrite app_nil_r, filter_In, !andb_true_iff, !Rltb_true, !Rleb_true'.
  unfold pointFromAngle, p_getPointFromAngle; cbn [px].
  change (nadd RNum) with Rplus. change (nmul RNum) with Rmult.
  assert (E : forall a b c : R, a + b * c - a = b * c) by (intros; ring).
  rewrite (E (px p) (cell_getMinSafeLength c) (cos ang)).
  split.
  - intros [I [[[A B] C] D]]. split; [exact I|]. split; [apply Rle_antisym; assumption|]. split; [exact C|exact D].
  - intros [I [A [C D]]]. split; [exact I|]. rewrite A. repeat split; try apply Rle_refl; assumption.
Qed.

Lemma row_dist (p r : pt) : py r = py p -> R_sqrt.sqrt (dist2 r p) = Rabs (px r - px p).
Proof.
  intros E. unfold dist2. rewrite E. 
  assert (T : forall a b : R, a * a + (b - b) * (b - b) = Rsqr a) by (intros; unfold Rsqr; ring). 
  transitivity (R_sqrt.sqrt (Rsqr (px r - px p))); [f_equal; apply T|]. apply sqrt_Rsqr_abs.
Qed.

Lemma row_big : 100 < 2 ^ 1023.
Proof. apply Rlt_le_trans with (2 ^ 7); [lra|]. apply Rle_pow; [lra|lia]. Qed.

Lemma row_before c ang : 0 <= cell_getMinSafeLength c -> cos ang = 1 \/ cos ang = -1 -> forall p, before ang (crossings row c ang p) p.
Proof.
  intros L C p r I. apply row_in in I as [_ [E [P D]]]. rewrite (row_dist p r E).
  split; [eapply Rlt_trans; [exact D|exact row_big]|]. intros _. rewrite E.
  assert (T : forall x l y y' s co : R, 0 <= l -> co = 1 \/ co = -1 -> y = y' -> 0 < x * (l * co) -> Rabs x <= 2 * (x * co + (y - y') * s)).
  { clear. intros x l y y' s co L C -> P. replace (x * co + (y' - y') * s) with (x * co) by ring.
    assert (l = 0 \/ 0 < l) as [->|L'] by lra; [replace (x * (0 * co)) with 0 in P by ring; lra|].
    assert (0 < x * co). { apply Rmult_lt_reg_l with l; auto. replace (l * (x * co)) with (x * (l * co)) by ring. lra. }
    destruct C as [-> | ->]; unfold Rabs; destruct (Rcase_abs x); lra. }
  exact (T _ _ _ _ _ _ L C eq_refl P).
Qed.

Lemma safe_length c x0 x1 y0 y1 : extent px (concat c) x0 x1 -> extent py (concat c) y0 y1 -> cell_getMinSafeLength c = x1 - x0 + (y1 - y0).
Proof.
  intros EX EY. assert (NE : concat c <> []). { intros E. rewrite E in EX. destruct EX as [[r [[] _]] _]. }
  destruct (extent_unique px (concat c) _ _ _ _ (env_extent px c NE) EX) as [E1 E2].
  destruct (extent_unique py (concat c) _ _ _ _ (env_extent py c NE) EY) as [E3 E4].
  unfold cell_getMinSafeLength. rewrite E1, E2, E3, E4. reflexivity.
Qed.

(** When the vertex is at one cell only, the lines are those of this cell. *)
Theorem trapezoid_own_cell : forall inter touches inside fuel d ang (cells : list rcell) c k (p : pt) lines,
  d_kind d = Trapezoidal -> genSplitLines inter touches inside fuel (setSplitAngle d ang) cells = Ok lines ->
  nth_error (vertices cells) k = Some p -> In c cells -> touches p c = true \/ inside p c = true ->
  (forall y, In y cells -> touches p y = true \/ inside p y = true -> y = c) ->
  (forall a r, In r (crossings inter c a p) -> R_sqrt.sqrt (dist2 r p) < 2 ^ 1023) ->
  exists l1 l2, nth_error lines (2 * k) = Some l1 /\ nth_error lines (2 * k + 1) = Some l2 /\
    ray_line (crossings inter c ang p) p l1 /\ ray_line (crossings inter c (ang + PI) p) p l2.
Proof.
  intros inter touches inside fuel d ang cells c k p lines K G V C T U D.
  destruct (trapezoid_lines inter touches inside fuel d ang cells K) as [lines' [G' [_ H]]].
  rewrite G in G'; injection G' as <-. destruct (H k p V) as [x [l1 [l2 [F [E1 [E2 [H1 H2]]]]]]].
  assert (x = c) as ->.
  { destruct F as [[pre [post [-> [Tx _]]]]|[_ N]]; [|exfalso; exact (N c C T)].
    apply U; auto. apply in_or_app; right; now left. }
  exists l1, l2. split; [exact E1|]. split; [exact E2|]. split; [apply H1|apply H2]; intros; eapply D; eassumption.
Qed.

Definition cellA : rcell := [[xy 0 0; xy 1 0; xy 1 1; xy 0 1; xy 0 0]].
Definition cellB : rcell := [[xy 1 1; xy 2 0; xy 3 1; xy 2 2; xy 1 1]].

Ltac point := cbn [px py xy concat app In] in *.

Lemma length_A : cell_getMinSafeLength cellA = 2.
Proof.
  rewrite (safe_length cellA 0 1 0 1); [ring| |].
  - split; [exists (xy 0 0); split; [left; reflexivity|reflexivity]|]. split; [exists (xy 1 0); split; [right; left; reflexivity|reflexivity]|].
    cbn [cellA concat app In]. intros q [<-|[<-|[<-|[<-|[<-|[]]]]]]; unfold xy; cbn [px]; lra.
  - split; [exists (xy 0 0); split; [left; reflexivity|reflexivity]|]. split; [exists (xy 1 1); split; [right; right; left; reflexivity|reflexivity]|].
    cbn [cellA concat app In]. intros q [<-|[<-|[<-|[<-|[<-|[]]]]]]; unfold xy; cbn [py]; lra.
Qed.

Lemma length_B : cell_getMinSafeLength cellB = 4.
Proof.
  rewrite (safe_length cellB 1 3 0 2); [ring| |].
  - split; [exists (xy 1 1); split; [left; reflexivity|reflexivity]|]. split; [exists (xy 3 1); split; [right; right; left; reflexivity|reflexivity]|].
    cbn [cellB concat app In]. intros q [<-|[<-|[<-|[<-|[<-|[]]]]]]; unfold xy; cbn [px]; lra.
  - split; [exists (xy 2 0); split; [right; left; reflexivity|reflexivity]|]. split; [exists (xy 2 2); split; [right; right; right; left; reflexivity|reflexivity]|].
    cbn [cellB concat app In]. intros q [<-|[<-|[<-|[<-|[<-|[]]]]]]; unfold xy; cbn [py]; lra.
Qed.

Lemma first_crossing_in l (p q : pt) : first_crossing l p q -> In q l.
Proof. intros [pre [post [-> _]]]. apply in_or_app; right; now left. Qed.

(** Of the points that are the same, the only crossing is the first. *)
Lemma only_crossing l (p q : pt) : In q l -> / 100000 < R_sqrt.sqrt (dist2 q p) -> (forall r, In r l -> r = q) -> first_crossing l p q.
Proof.
  intros I D U. destruct l as [|x l]; [destruct I|]. assert (x = q) as -> by (apply U; now left).
  exists [], l. split; [reflexivity|]. split; [exact D|]. split; [intros r []|]. intros r Ir _. rewrite (U r) by now right. apply Rle_refl.
Qed.

Lemma at_vertex_true (p : pt) c : at_vertex p c = true <-> exists r : pt, In r (concat c) /\ px r = px p /\ py r = py p.
Proof.
  unfold at_vertex. rewrite existsb_exists. split.
  - intros [r [I H]]. rewrite !andb_true_iff, !Rleb_true' in H. destruct H as [[[A B] C] D]. exists r. split; [exact I|].
    split; apply Rle_antisym; assumption.
  - intros [r [I [A B]]]. exists r. split; [exact I|]. rewrite !andb_true_iff, !Rleb_true', A, B. repeat split; apply Rle_refl.
Qed.

(** The line that runs from a vertex into its own cell can be missing: the vertex (1, 1)
    of the diamond is also at the square, which comes first, and the square has nothing
    to the east of it. *)
Theorem trapezoid_own_cell_refuted : exists inter touches inside fuel d (cells : list rcell) c (p q : pt) lines,
  d_kind d = Trapezoidal /\ In c cells /\ In p (concat c) /\ touches p c = true /\
  first_crossing (crossings inter c 0 p) p q /\
  genSplitLines inter touches inside fuel (setSplitAngle d 0) cells = Ok lines /\ ~ In [p; q] lines.
Proof.
  exists row, at_vertex, (fun _ _ => false), 0%nat, (decomp_new Trapezoidal), [cellA; cellB], cellB, (xy 1 1), (xy 3 1).
  eexists. split; [reflexivity|]. split; [right; now left|]. split; [now left|].
  split. { apply at_vertex_true. exists (xy 1 1). split; [now left|]. split; reflexivity. }
  assert (D : R_sqrt.sqrt (dist2 (xy 3 1) (xy 1 1)) = 2).
  { rewrite row_dist by reflexivity. unfold xy; cbn [px]. rewrite Rabs_right; lra. }
  split.
  { apply only_crossing; [|rewrite D; lra|].
    - apply row_in. rewrite length_B, cos_0. unfold xy; cbn [px py]. split; [right; right; now left|]. split; [reflexivity|].
      split; [lra|]. rewrite Rabs_right; lra.
    - intros r I. apply row_in in I as [I [E [P _]]]. rewrite length_B, cos_0 in P. cbn [cellB concat app In] in I.
      destruct I as [<-|[<-|[<-|[<-|[<-|[]]]]]]; unfold xy in *; cbn [px py] in *; try lra; reflexivity. }
  split; [reflexivity|].
  intros I. cbn [setSplitAngle decomp_new d_angle d_kind] in I. rewrite trapezoidal_list, trapezoidal_fold in I. cbn [app] in I.
  apply in_flat_map in I as [v [V I]].
  assert (W : forall ang, cells_createLineUntilBorder row at_vertex (fun _ _ => false) [cellA; cellB] v ang <> [xy 1 1; xy 3 1]).
  { intros ang E. unfold cells_createLineUntilBorder in E.
    destruct (getCellWherePoint at_vertex (fun _ _ => false) [cellA; cellB] v) as [|r0 rs] eqn:G.
    - destruct (until_border row [] v ang (crossings row [] ang v) eq_refl) as [[E' _]|[q [_ F]]].
      + intros r H. apply row_in in H as [[] _].
      + rewrite E' in E; discriminate.
      + apply first_crossing_in, row_in in F as [[] _].
    - rewrite <- G in E. clear G r0 rs.
      set (x := getCellWherePoint at_vertex (fun _ _ => false) [cellA; cellB] v) in *.
      destruct (until_border row x v ang (crossings row x ang v) eq_refl) as [[E' _]|[q [E' F]]].
      + intros r H. apply row_in in H as [_ [Ey [_ H]]]. change (R_sqrt.sqrt (dist2 r v) < dbl_max). rewrite (row_dist v r Ey).
        eapply Rlt_le_trans; [eapply Rlt_trans; [exact H|exact row_big]|exact max_above].
      + rewrite E' in E; discriminate.
      + rewrite E' in E. injection E as Ev Eq. subst v q. apply first_crossing_in, row_in in F as [F _].
        assert (X : x = cellA).
        { unfold x, getCellWherePoint. cbn [coll_size].
          change (firstn (coll_size (cell_isEmpty RNum) [cellA; cellB]) [cellA; cellB]) with [cellA; cellB]. cbn [find].
          replace (at_vertex (xy 1 1) cellA) with true; [reflexivity|]. symmetry; apply at_vertex_true.
          exists (xy 1 1). split; [right; right; now left|]. split; reflexivity. }
        rewrite X in F. cbn [cellA concat app In] in F.
        destruct F as [F|[F|[F|[F|[F|[]]]]]]; apply (f_equal (px (N := RNum))) in F; unfold xy in F; cbn [px] in F; lra. }
  destruct I as [I|[I|[]]]; exact (W _ I).
Qed.

(** Alone, the diamond gets that line and the one back from (3, 1). *)
Example trapezoid_own_cell_ex : exists lines,
  genSplitLines row at_vertex (fun _ _ => false) 0 (setSplitAngle (decomp_new Trapezoidal) 0) [cellB] = Ok lines /\
  nth_error lines 0 = Some [xy 1 1; xy 3 1].
Proof.
  assert (B : forall a r, In r (crossings row cellB a (xy 1 1)) -> R_sqrt.sqrt (dist2 r (xy 1 1)) < 2 ^ 1023).
  { intros a r I. apply row_in in I as [_ [E [_ I]]]. rewrite row_dist by exact E. eapply Rlt_trans; [exact I|exact row_big]. }
  eexists; split; [reflexivity|].
  destruct (trapezoid_own_cell row at_vertex (fun _ _ => false) 0 (decomp_new Trapezoidal) 0 [cellB] cellB 0 (xy 1 1) _ eq_refl eq_refl eq_refl) as [l1 [l2 [E1 [_ [[[_ N]|[q [-> F]]] _]]]]].
  - now left.
  - left. apply at_vertex_true. exists (xy 1 1). split; [now left|]. split; reflexivity.
  - intros y [<-|[]] _. reflexivity.
  - exact B.
  - exfalso. apply (N (xy 3 1)).
    + apply row_in. rewrite length_B, cos_0. unfold xy; cbn [px py]. split; [right; right; now left|]. split; [reflexivity|].
      split; [lra|]. rewrite Rabs_right; lra.
    + rewrite row_dist by reflexivity. unfold xy; cbn [px]. rewrite Rabs_right; lra.
  - etransitivity; [exact E1|]. do 3 f_equal. apply first_crossing_in, row_in in F as [I [E [P _]]].
    rewrite length_B, cos_0 in P. cbn [cellB concat app In] in I.
    destruct I as [<-|[<-|[<-|[<-|[<-|[]]]]]]; unfold xy in *; cbn [px py] in *; try lra; reflexivity.
Qed.

(** *** Boustrophedon lines *)
(** When the crossings of a ray lie before its start, boustrophedon decomposition ends
    (for all fuels from some on the result is the same), and adds for every vertex of
    every ring, in order, either two lines or none.  They are found by going from the
    vertex over edges of its ring in the split angle and opposite to it; two are added
    if both sides leave the edges into a line that is not an edge. *)
Theorem boustrophedon_lines : forall inter touches inside d ang (cells : list rcell),
  d_kind d = BoustrophedonD ->
  (forall c p, In c cells -> before ang (crossings inter c ang p) p /\ before (ang + PI) (crossings inter c (ang + PI) p) p) ->
  exists enough chunks,
    Forall2 (fun v ls => let '(c, ring, p) := v in
      both_sides (crossings inter c ang) (crossings inter c (ang + PI)) ring p ls) (placed cells) chunks /\
    forall fuel, (enough < fuel)%nat ->
      genSplitLines inter touches inside fuel (setSplitAngle d ang) cells = Ok (concat chunks).
Proof.
  intros inter touches inside d ang cells K B.
  destruct (boustrophedon_fold inter ang (placed cells)) as [n [ch [F E]]].
  { intros x X q. apply B. now apply placed_cell. }
  exists n, ch. split.
  - clear -F. induction F as [|[[c r] p] ls xs chs H F IH]; constructor; auto.
  - intros fuel L. unfold genSplitLines. change (d_kind (setSplitAngle d ang)) with (d_kind d). rewrite K.
    change (d_angle (setSplitAngle d ang)) with ang. rewrite boustrophedon_list, E by exact L. reflexivity.
Qed.

(** The shape of an M: at the valley (2, 1) there is one line to each side. *)
Definition ringM : list rpoint := [xy 0 0; xy 4 0; xy 4 1; xy 3 3; xy 2 1; xy 1 3; xy 0 1; xy 0 0].

Lemma length_M : cell_getMinSafeLength [ringM] = 7.
Proof.
  rewrite (safe_length [ringM] 0 4 0 3); [ring| |].
  - split; [exists (xy 0 0); split; [left; reflexivity|reflexivity]|]. split; [exists (xy 4 0); split; [right; left; reflexivity|reflexivity]|].
    cbn [ringM concat app In]. intros q H. repeat destruct H as [<-|H]; try destruct H; unfold xy; cbn [px]; lra.
  - split; [exists (xy 0 0); split; [left; reflexivity|reflexivity]|]. split; [exists (xy 3 3); split; [right; right; right; left; reflexivity|reflexivity]|].
    cbn [ringM concat app In]. intros q H. repeat destruct H as [<-|H]; try destruct H; unfold xy; cbn [py]; lra.
Qed.

Lemma not_edge_M x : ~ edge_like ringM (xy 2 1) (xy x 1).
Proof.
  intros [pre [a [b [post [E H]]]]]. unfold close in H.
  unfold ringM in E.
  repeat (destruct pre as [|? pre]; cbn [app] in E;
    [injection E as <- <- _|injection E as _ E]).
  all: try (destruct pre as [|? [|? ?]]; discriminate).
  all: unfold xy in H; cbn [px py] in H.
  all: destruct H as [[[A1 [A2 _]] [A3 [A4 _]]]|[[A1 [A2 _]] [A3 [A4 _]]]].
  all: apply Rabs_def2 in A1; apply Rabs_def2 in A2; apply Rabs_def2 in A3; apply Rabs_def2 in A4; lra.
Qed.

Lemma valley cr x : (forall r, In r (cr (xy 2 1)) -> r = xy x 1) -> forall l, leaves_edges cr ringM (xy 2 1) l ->
  In (xy x 1) (cr (xy 2 1)) -> / 100000 < R_sqrt.sqrt (dist2 (xy x 1) (xy 2 1)) -> l = [xy 2 1; xy x 1].
Proof.
  intros U l [a [A H]] I D.
  assert (a = xy 2 1) as ->.
  { inversion A as [|p q a' F K A' Ep Ea]; subst; auto. exfalso. rewrite (U q (first_crossing_in _ _ _ F)) in K. exact (not_edge_M _ K). }
  destruct H as [[_ N]|[b [-> [F _]]]]; [exfalso; exact (N _ I D)|]. now rewrite (U b (first_crossing_in _ _ _ F)).
Qed.

Lemma Forall2_at {A B} (P : A -> B -> Prop) l m : Forall2 P l m -> forall k x, nth_error l k = Some x -> exists y, nth_error m k = Some y /\ P x y.
Proof.
  induction 1 as [|a b l m H F IH]; intros [|k] x E; try discriminate; cbn [nth_error] in *.
  - injection E as <-. now exists b.
  - now apply IH.
Qed.

Example boustrophedon_lines_ex :
  (forall c p, In c [[ringM]] -> before 0 (crossings row c 0 p) p /\ before (0 + PI) (crossings row c (0 + PI) p) p) /\
  exists enough lines, In [xy 2 1; xy 4 1] lines /\ In [xy 2 1; xy 0 1] lines /\ forall fuel, (enough < fuel)%nat ->
    genSplitLines row at_vertex (fun _ _ => false) fuel (setSplitAngle (decomp_new BoustrophedonD) 0) [[ringM]] = Ok lines.
Proof.
  assert (CP : cos (0 + PI) = -1) by (rewrite Rplus_0_l; exact cos_PI).
  assert (B : forall c p, In c [[ringM]] -> before 0 (crossings row c 0 p) p /\ before (0 + PI) (crossings row c (0 + PI) p) p).
  { intros c p [<-|[]]. split; apply row_before; try (rewrite length_M; lra); [left; exact cos_0|right; exact CP]. }
  split; [exact B|].
  destruct (boustrophedon_lines row at_vertex (fun _ _ => false) (decomp_new BoustrophedonD) 0 [[ringM]] eq_refl B) as [n [ch [F E]]].
  exists n, (concat ch).
  assert (G : In [[xy 2 1; xy 4 1]; [xy 2 1; xy 0 1]] ch).
  2:{ split; [|split; [|exact E]]; apply in_concat; eexists; split; try exact G; [now left|right; now left]. }
  destruct (Forall2_at _ _ _ F 4 ([ringM], ringM, xy 2 1) eq_refl) as [ls [N [l1 [l2 [L1 [L2 H]]]]]].
  assert (E1 : l1 = [xy 2 1; xy 4 1]).
  { eapply valley; [|exact L1| |].
    - intros r I. apply row_in in I as [I [Ey [P _]]]. rewrite length_M, cos_0 in P. cbn [ringM concat app In] in I.
      repeat destruct I as [<-|I]; try destruct I; unfold xy in *; cbn [px py] in *; try lra; reflexivity.
    - apply row_in. rewrite length_M, cos_0. unfold xy; cbn [px py]. split; [right; right; left; reflexivity|]. split; [reflexivity|].
      split; [lra|]. rewrite Rabs_right; lra.
    - rewrite row_dist by reflexivity. unfold xy; cbn [px]. rewrite Rabs_right; lra. }
  assert (E2 : l2 = [xy 2 1; xy 0 1]).
  { eapply valley; [|exact L2| |].
    - intros r I. apply row_in in I as [I [Ey [P _]]]. rewrite length_M, CP in P. cbn [ringM concat app In] in I.
      repeat destruct I as [<-|I]; try destruct I; unfold xy in *; cbn [px py] in *; try lra; reflexivity.
    - apply row_in. rewrite length_M, CP. unfold xy; cbn [px py]. split; [do 6 right; left; reflexivity|]. split; [reflexivity|].
      split; [lra|]. rewrite Rabs_left; lra.
    - rewrite row_dist by reflexivity. unfold xy; cbn [px]. rewrite Rabs_left; lra. }
  subst l1 l2. destruct H as [[_ [_ ->]]|[[H|H] _]]; [exact (nth_error_In _ _ N)|discriminate|discriminate].
Qed.

(** *** The cells *)
(** With a geometry library whose difference is the difference of the point sets
    ([covers]), the result of a decomposition is what is left of the cells without the
    strips (1e-8 to each side) round the lines.  The only other outcome is that the
    growth of some part fails. *)
Theorem decompose_space : forall inter touches inside difference buffer_line buffer_cell (covers : list rcell -> pt -> Prop) fuel d (cells : list rcell) lines,
  (forall a b p, covers (difference a b) p <-> covers a p /\ ~ covers b p) ->
  (forall w p, ~ covers (buffer_line [] w) p) ->
  genSplitLines inter touches inside fuel d cells = Ok lines ->
  (exists r, decompose inter touches inside difference buffer_line buffer_cell fuel d cells = Ok r /\
     forall p, covers r p <-> covers cells p /\ forall l, In l lines -> ~ covers (buffer_line l (1 / 100000000)) p) \/
  (exists x, (forall y, buffer_cell x (1 / 100000000 * (1 / 2)) <> Ok y) /\
     forall r, decompose inter touches inside difference buffer_line buffer_cell fuel d cells <> Ok r).
Proof.
  intros inter touches inside difference buffer_line buffer_cell covers fuel d cells lines D Z G.
  unfold decompose, decomp_split, decomp_merge. rewrite G; cbn [bind].
  destruct (forallb (line_isEmpty RNum) lines) eqn:E.
  - left. exists cells. unfold splitByLines. rewrite firstn_coll, E. cbn [foldM bind]. split; [reflexivity|].
    intros p. split; [|tauto]. intros C. split; auto. intros l L. rewrite forallb_forall in E.
    rewrite (line_empty_nil l (E l L)). apply Z.
  - assert (P : proper lines).
    { right. clear -E. induction lines as [|l lines IH]; [discriminate|]. cbn [forallb] in E. apply andb_false_iff in E as [E|E].
      - exists l. split; [now left|]. intros ->; discriminate.
      - destruct (IH E) as [x [I N]]. exists x. split; [now right|exact N]. }
    destruct (split_sequence difference buffer_line buffer_cell cells lines P) as [[r [Er C]]|[x [Bx Er]]].
    + left. exists r. rewrite Er. split; [reflexivity|]. exact (cut_covers covers difference _ D lines cells r C).
    + right. exists x. split; [exact Bx|]. intros r. destruct (splitByLines RNum difference buffer_line buffer_cell cells lines) as [r'| | |]; cbn [bind]; try discriminate.
      exfalso. exact (Er r' eq_refl).
Qed.

(** A geometry library for examples: cells of one point, sets of such cells. *)
Definition pt_dec (p q : rpoint) : {p = q} + {p <> q}.
Proof.
  destruct p as [x y z], q as [x' y' z'].
  destruct (Req_EM_T x x'); [|right; intros H; injection H; intros; contradiction].
  destruct (Req_EM_T y y'); [|right; intros H; injection H; intros; contradiction].
  destruct (Req_EM_T z z'); [|right; intros H; injection H; intros; contradiction].
  left; subst; reflexivity.
Defined.
Definition cell_dec : forall a b : rcell, {a = b} + {a <> b} := list_eq_dec (list_eq_dec pt_dec).
Definition minus (a b : list rcell) : list rcell := filter (fun x => if in_dec cell_dec x b then false else true) a.
Definition has (c : list rcell) (p : pt) : Prop := In [[p]] c.
Definition dots (l : list rpoint) (w : R) : list rcell := map (fun p => [[p]]) l.

Lemma has_minus a b p : has (minus a b) p <-> has a p /\ ~ has b p.
Proof.
  unfold has, minus. rewrite filter_In. destruct (in_dec cell_dec [[p]] b); split; intros [H1 H2]; split; auto; try discriminate; contradiction.
Qed.

Example decompose_space_ex : (forall a b p, has (minus a b) p <-> has a p /\ ~ has b p) /\ (forall w p, ~ has (dots [] w) p) /\
  has (minus [[[xy 0 0]]; [[xy 1 1]]] (dots [xy 1 1] 1)) (xy 0 0) /\ ~ has (minus [[[xy 0 0]]; [[xy 1 1]]] (dots [xy 1 1] 1)) (xy 1 1).
Proof.
  split; [exact has_minus|]. split; [intros w p []|]. rewrite !has_minus. split.
  - split; [now left|]. intros [H|[]]. injection H as H _. lra.
  - intros [_ N]. apply N. now left.
Qed.

(** Decomposition does not keep the space of the cells, as its documentation says: points
    on the lines are lost.  The laws of [decompose_space] hold here, the strip of a line
    has the points of the line, and growing a cell never fails. *)
Theorem decompose_same_space_refuted : exists inter touches inside difference buffer_line buffer_cell (covers : list rcell -> pt -> Prop) fuel d cells r p,
  (forall a b p, covers (difference a b) p <-> covers a p /\ ~ covers b p) /\
  (forall w p, ~ covers (buffer_line [] w) p) /\ (forall l w p, In p l -> covers (buffer_line l w) p) /\
  (forall x w, buffer_cell x w = Ok x) /\
  decompose inter touches inside difference buffer_line buffer_cell fuel d cells = Ok r /\ covers cells p /\ ~ covers r p.
Proof.
  pose (inter := fun (_ : list (list rpoint)) (_ : rcell) => [[xy 3 1]]).
  destruct (decompose_space inter (fun _ _ => true) (fun _ _ => true) minus dots (fun x _ => Ok x) has 0 (decomp_new Trapezoidal) [[[xy 1 1]]] _
    has_minus (fun w p H => match H with end) eq_refl) as [[r [E H]]|[x [X _]]].
  2:{ exfalso. exact (X x eq_refl). }
  exists inter, (fun _ _ => true), (fun _ _ => true), minus, dots, (fun x _ => Ok x), has, 0%nat, (decomp_new Trapezoidal), [[[xy 1 1]]], r, (xy 1 1).
  split; [exact has_minus|]. split; [intros w p []|]. split; [intros l w p I; unfold has, dots; now apply (in_map (fun p => [[p]]))|].
  split; [reflexivity|]. split; [exact E|]. split; [now left|]. rewrite H. intros [_ K].
  assert (W : In [xy 1 1; xy 3 1] (trapezoidal_genSplitLines inter (fun _ _ => true) (fun _ _ => true) (d_angle (decomp_new Trapezoidal)) [[[xy 1 1]]])).
  { rewrite trapezoidal_list, trapezoidal_fold. cbn [app vertices map concat flat_map]. left.
    unfold cells_createLineUntilBorder. set (c := getCellWherePoint _ _ _ _). set (a := d_angle _).
    destruct (until_border inter c (xy 1 1) a [xy 3 1] eq_refl) as [[_ N]|[q [Eq F]]].
    - intros q [<-|[]]. change (R_sqrt.sqrt (dist2 (xy 3 1) (xy 1 1)) < dbl_max). rewrite row_dist by reflexivity.
      unfold xy; cbn [px]. rewrite Rabs_right by lra. pose proof row_big. pose proof max_above. lra.
    - exfalso. apply (N (xy 3 1)); [now left|]. change (/ 100000 < R_sqrt.sqrt (dist2 (xy 3 1) (xy 1 1))). rewrite row_dist by reflexivity.
      unfold xy; cbn [px]. rewrite Rabs_right; lra.
    - rewrite Eq. apply first_crossing_in in F as [<-|[]]. reflexivity. }
  apply (K _ W). now left.
Qed.

(** The objective of decompositions does not tell them apart. *)
Theorem decomp_cost_blind : forall a b, decomp_cost a = decomp_cost b.
Proof. reflexivity. Qed.

Print Assumptions split_angle_kept.
Print Assumptions edge_test.
Print Assumptions trapezoid_lines.
Print Assumptions trapezoid_own_cell.
Print Assumptions trapezoid_own_cell_refuted.
Print Assumptions boustrophedon_lines.
Print Assumptions decompose_space.
Print Assumptions decompose_same_space_refuted.
Print Assumptions decomp_cost_blind.
