(** Theorems about drawings. *)
From Coq Require Import List Arith Lia ZArith Bool Reals Lra Floats.
From Verif Require Import Outcome Num ListAux Point_Model Swath_Model Swath_Proofs3 Route_Model Path_Model Container_Model
  Container_Proofs Field_Model Vis_Model Vis_Spec Vis_Proofs.
Import ListNotations.
Local Open Scope nat_scope.

(** *** Colours *)
(** [linspace] with two or more numbers is evenly spaced and goes from the first bound
    to the second. *)
Theorem linspace_even : forall (a b : R) n, 2 <= n ->
  @length R (linspace RNum a b n) = n /\ evenly a b (linspace RNum a b n) /\
  forall x, In x (linspace RNum a b n) -> (Rmin a b <= x <= Rmax a b)%R.
Proof.
  intros a b n L. assert (LL : @length R (linspace RNum a b n) = n) by exact (linspace_length (N := RNum) a b n).
  split; [exact LL|].
  assert (P : (0 < INR n - 1)%R). { apply (le_INR 2) in L. cbn [INR] in L. lra. }
  assert (X : forall i x, nth_error (linspace RNum a b n) i = Some x -> i < n /\ x = (a + INR i * ((b - a) / (INR n - 1)))%R).
  { intros i x E. unfold linspace in E. rewrite nth_error_map in E.
    destruct (nth_error (seq 0 n) i) as [j|] eqn:J; [|discriminate]. injection E as <-.
    assert (I : i < n). { rewrite <- (seq_length n 0). apply nth_error_Some. rewrite J. discriminate. }
    split; [exact I|]. rewrite (nth_error_nth' _ 0) in J by (rewrite seq_length; exact I). rewrite seq_nth in J by exact I. injection J as <-.
    cbn [nadd nmul ndiv nsub nofZ RNum Nat.add]. now rewrite !INR_IZR_INZ. }
  split.
  - exists ((b - a) / (INR n - 1))%R. split; [intros i x E; now apply X|]. rewrite LL, minus_INR by lia. cbn [INR]. field. lra.
  - intros x I. apply In_nth_error in I as [i E]. apply X in E as [I ->].
    assert (T : (0 <= INR i / (INR n - 1) <= 1)%R).
    { assert (0 <= INR i)%R by apply pos_INR. assert (INR i <= INR n - 1)%R.
      { assert (S i <= n) by lia. apply le_INR in H0. rewrite S_INR in H0. lra. }
      split; [apply Rmult_le_pos; [assumption|left; now apply Rinv_0_lt_compat]|].
      apply Rmult_le_reg_r with (INR n - 1)%R; [assumption|]. unfold Rdiv. rewrite Rmult_assoc, Rinv_l by lra. lra. }
    set (t := (INR i / (INR n - 1))%R) in *.
    replace (a + INR i * ((b - a) / (INR n - 1)))%R with (a + t * (b - a))%R by (unfold t; field; lra).
    clearbody t. unfold Rmin, Rmax. destruct (Rle_dec a b) as [Q|Q].
    + assert (0 <= t * (b - a))%R by (apply Rmult_le_pos; lra). assert (t * (b - a) <= 1 * (b - a))%R by (apply Rmult_le_compat_r; lra). lra.
    + assert (0 <= t * (a - b))%R by (apply Rmult_le_pos; lra). assert (t * (a - b) <= 1 * (a - b))%R by (apply Rmult_le_compat_r; lra). lra.
Qed.

Example linspace_even_ex : nth_error (linspace RNum 0%R 10%R 3) 1 = Some 5%R.
Proof.
  destruct (linspace_even 0 10 3) as [L [[h [E B]] _]]; [lia|]. destruct (nth_error (linspace RNum 0%R 10%R 3) 1) as [x|] eqn:X.
  - f_equal. pose proof (E 1 x X) as Ex. rewrite L in B. cbn [INR Nat.sub] in B, Ex. assert (h = 5)%R by lra. rewrite Ex, H. lra.
  - apply (@nth_error_None R) in X. rewrite L in X. lia.
Qed.

(** The colours made for two or more things have three components between 0 and 1, and go
    from the first colour given to the second. *)
Theorem colors_even : forall (a b : list Z) n, 2 <= n -> length a = 3 -> length b = 3 ->
  (forall z, In z (a ++ b) -> (0 <= z <= 255)%Z) ->
  exists l, color_linspace RNum a b n = Ok l /\ length l = n /\
    (forall c x, In c l -> In x c -> (0 <= x <= 1)%R) /\ (forall c, In c l -> length c = 3) /\
    nth_error l 0 = Some (map (fun z => (IZR z / 255)%R) a) /\ nth_error l (n - 1) = Some (map (fun z => (IZR z / 255)%R) b).
Proof.
  intros a b n L La Lb ZB. destruct (color_linspace_spec (N := RNum) a b n) as [l [E [Ln C]]]; [lia|lia|].
  exists l. split; [exact E|]. split; [exact Ln|].
  assert (U : forall (z z' : Z) i x, (0 <= z <= 255)%Z -> (0 <= z' <= 255)%Z -> nth_error (linspace RNum (IZR z) (IZR z') n) i = Some x -> (0 <= x / 255 <= 1)%R).
  { intros z z' i x [Z1 Z2] [Z3 Z4] X. apply nth_error_In in X. apply (linspace_even _ _ _ L) in X.
    apply IZR_le in Z1, Z2, Z3, Z4. unfold Rmin, Rmax in X. destruct (Rle_dec (IZR z) (IZR z')); lra. }
  split; [|split; [|split]].
  - intros c x Ic Ix. apply In_nth_error in Ic as [i Ei]. apply C in Ei as [r [g [bl [r0 [r1 [g0 [g1 [b0 [b1 [-> [A0 [A1 [A2 [B0 [B1 [B2 [Fr [Fg Fb]]]]]]]]]]]]]]]]]].
    assert (Ia : forall k z, nth_error a k = Some z -> (0 <= z <= 255)%Z) by (intros; apply ZB, in_or_app; left; eapply nth_error_In; eassumption).
    assert (Ib : forall k z, nth_error b k = Some z -> (0 <= z <= 255)%Z) by (intros; apply ZB, in_or_app; right; eapply nth_error_In; eassumption).
    destruct Ix as [<-|[<-|[<-|[]]]]; [eapply (U r0 r1)|eapply (U g0 g1)|eapply (U b0 b1)]; eauto.
  - intros c Ic. apply In_nth_error in Ic as [i Ei]. apply C in Ei as [r [g [bl [r0 [r1 [g0 [g1 [b0 [b1 [-> _]]]]]]]]]]. reflexivity.
  - destruct (nth_error l 0) as [c|] eqn:Ec; [|apply nth_error_None in Ec; lia]. f_equal.
    apply C in Ec as [r [g [bl [r0 [r1 [g0 [g1 [b0 [b1 [-> [A0 [A1 [A2 [B0 [B1 [B2 [Fr [Fg Fb]]]]]]]]]]]]]]]]]].
    destruct a as [|a0 [|a1 [|a2 [|? ?]]]]; try discriminate. cbn in A0, A1, A2. injection A0 as <-; injection A1 as <-; injection A2 as <-.
    assert (F : forall z z' x, nth_error (linspace RNum (IZR z) (IZR z') n) 0 = Some x -> x = IZR z).
    { intros z z' x X. destruct (linspace_even (IZR z) (IZR z') n L) as [_ [[h [H _]] _]]. rewrite (H 0 x X). cbn [INR]. lra. }
    rewrite (F _ _ _ Fr), (F _ _ _ Fg), (F _ _ _ Fb). reflexivity.
  - destruct (nth_error l (n - 1)) as [c|] eqn:Ec; [|apply nth_error_None in Ec; lia]. f_equal.
    apply C in Ec as [r [g [bl [r0 [r1 [g0 [g1 [b0 [b1 [-> [A0 [A1 [A2 [B0 [B1 [B2 [Fr [Fg Fb]]]]]]]]]]]]]]]]]].
    destruct b as [|a0 [|a1 [|a2 [|? ?]]]]; try discriminate. cbn in B0, B1, B2. injection B0 as <-; injection B1 as <-; injection B2 as <-.
    assert (F : forall z z' x, nth_error (linspace RNum (IZR z) (IZR z') n) (n - 1) = Some x -> x = IZR z').
    { intros z z' x X. destruct (linspace_even (IZR z) (IZR z') n L) as [Ll [[h [H H']] _]]. rewrite (H _ x X). rewrite Ll in H'. exact H'. }
    rewrite (F _ _ _ Fr), (F _ _ _ Fg), (F _ _ _ Fb). reflexivity.
Qed.

Example colors_even_ex : exists l, color_linspace RNum green dark 2 = Ok l /\ nth_error l 0 = Some [0 / 255; 255 / 255; 0 / 255]%R.
Proof.
  destruct (colors_even green dark 2) as [l [E [_ [_ [_ [F _]]]]]]; try reflexivity; [|exists l; split; [exact E|exact F]].
  - unfold green, dark. cbn [app In]. intros z H. repeat destruct H as [<-|H]; try destruct H; lia.
Qed.

(** A colour made for a single thing is not a colour: all components are NaN. *)
Lemma one_color : exists x y z : float, color_linspace FNum green dark 1 = Ok [[x; y; z]] /\
  PrimFloat.eqb x x = false /\ PrimFloat.eqb y y = false /\ PrimFloat.eqb z z = false.
Proof.
  destruct (color_linspace_spec (N := FNum) green dark 1) as [l [E [L _]]]; [cbn; lia|cbn; lia|].
  do 3 eexists. split; [cbv -[PrimFloat.add PrimFloat.sub PrimFloat.mul PrimFloat.div PrimFloat.of_uint63 PrimFloat.opp]; reflexivity|].
  split; [vm_compute; reflexivity|]. split; vm_compute; reflexivity.
Qed.

(** *** Swaths *)
(** Swaths with as many colours: every swath is drawn, in order, in its colour, as a curve
    and an arrow; without colours, in as many made ones.  With some colours, but fewer than
    swaths, it is undefined behaviour. *)
Theorem swaths_drawn : forall (N : Num) (s : list (swath (point N) N)) given,
  (given = [] \/ length s <= length given ->
   exists colors ds, plot_swaths N s given = Ok ds /\ (given <> [] -> colors = given) /\ length s <= length colors /\
     one_by_one (fun i x ch => exists c, nth_error colors i = Some c /\ with_arrow (sw_path x) c ch) s ds) /\
  (given <> [] -> length given < length s -> plot_swaths N s given = UB).
Proof.
  intros N s given. unfold plot_swaths. destruct (colors_or_length given (length s)) as [colors [-> [G1 G2]]]; cbn [bind]. split.
  - intros H. assert (L : length s <= length colors).
    { destruct given as [|g given]; [rewrite G2 by reflexivity; lia|]. destruct H as [H|H]; [discriminate|]. now rewrite G1 by discriminate. }
    exists colors. destruct (draw_ok (fun i x ch => exists c, nth_error colors i = Some c /\ with_arrow (sw_path x) c ch)
      (fun i => do x <- vec_index s i; do c <- vec_index colors i; plot_swath N x c) s) as [ds [E O]].
    + intros i x X. destruct (index_lt colors i) as [c [Ec C]].
      { assert (i < length s) by (apply nth_error_Some; rewrite X; discriminate). lia. }
      unfold vec_index at 1. rewrite X; cbn [bind]. rewrite Ec; cbn [bind].
      destruct (plot_swath_spec x c) as [ds [E W]]. exists ds. split; [exact E|]. exists c; auto.
    + exists ds. split; [exact E|]. split; [exact G1|]. split; [exact L|exact O].
  - intros Ng L. rewrite (G1 Ng). apply draw_ub with (length given); [| |exact L].
    + intros i I. destruct (index_lt s i) as [x [Ex _]]; [lia|]. destruct (index_lt given i I) as [c [Ec _]].
      rewrite Ex; cbn [bind]; rewrite Ec; cbn [bind]. destruct (plot_swath_spec x c) as [ds [E _]]. now exists ds.
    + destruct (index_lt s (length given) L) as [x [Ex _]]. rewrite Ex; cbn [bind]. unfold vec_index.
      destruct (nth_error given (length given)) eqn:Q; [|reflexivity]. exfalso.
      assert (length given < length given) by (apply nth_error_Some; rewrite Q; discriminate). lia.
Qed.

(** Without colours given they go from green to a dark one, the same for swaths, swaths by
    cells and paths. *)
Theorem default_colors : forall (given : list (list R)) n, 2 <= n -> given = [] ->
  exists l, colors_or RNum given n = Ok l /\ length l = n /\
    nth_error l 0 = Some [0 / 255; 255 / 255; 0 / 255]%R /\ nth_error l (n - 1) = Some [21 / 255; 15 / 255; 11 / 255]%R.
Proof.
  intros given n L ->. cbn [colors_or]. destruct (colors_even green dark n L eq_refl eq_refl) as [l (E & Ln & _ & _ & F & B)].
  - unfold green, dark. cbn [app In]. intros z H. repeat destruct H as [<-|H]; try destruct H; lia.
  - exists l. auto.
Qed.
Example default_colors_ex : exists l, colors_or RNum [] 7 = Ok l /\ length l = 7.
Proof. destruct (default_colors [] 7) as [l (E & L & _)]; [lia|reflexivity|]. exists l. auto. Qed.

(** Drawing two lists of numbers draws the curve through the points with these coordinates. *)
Theorem vectors_drawn : forall (N : Num) (l : list (point N)) c, 3 <= length c ->
  exists d, plot_vectors N (map px l) (map py l) c = [d] /\ curve_through l c d.
Proof. intros N l c H. eexists. split; [reflexivity|]. repeat split; cbn; auto. lia. Qed.
Example vectors_drawn_ex : plot_vectors FNum [1; 2]%float [3; 4]%float [1; 0; 0]%float =
  [mkDrawn (Curve (N := FNum) [1; 2]%float [3; 4]%float) (Some (1%float : FNum)) (Some [1; 0; 0]%float)].
Proof. reflexivity. Qed.
Print Assumptions default_colors.
Print Assumptions vectors_drawn.

Definition sw1 : swath (point FNum) FNum := mkSwath _ _ 0 [mkPoint (N := FNum) 0 0 0; mkPoint (N := FNum) 4 0 0; mkPoint (N := FNum) 4 2 0]%float 1%float true MAINLAND.

Example swaths_drawn_ex : plot_swaths FNum [sw1] [[1; 0; 0]%float] =
  Ok [mkDrawn (Curve (N := FNum) [0; 4; 4]%float [0; 0; 2]%float) (Some (1%float : FNum)) (Some [1; 0; 0]%float);
      mkDrawn (Arrow (N := FNum) 4 0 4 2)%float (Some (1%float : FNum)) (Some [1; 0; 0]%float)] /\
  plot_swaths FNum [sw1; sw1] [[1; 0; 0]%float] = UB.
Proof. split; reflexivity. Qed.

(** A single swath without a colour given is drawn in a colour whose components are all NaN. *)
Theorem single_swath_color_refuted : exists s : swath (point FNum) FNum, exists ds,
  plot_swaths FNum [s] [] = Ok ds /\ ds <> [] /\
  forall d, In d ds -> exists c : list float, dr_color d = Some c /\ c <> [] /\ forall x, In x c -> PrimFloat.eqb x x = false.
Proof.
  exists sw1. destruct one_color as [x [y [z [E [X [Y Z]]]]]]. unfold plot_swaths, colors_or. cbn [length]. rewrite E. cbn [bind].
  eexists. split; [reflexivity|]. split; [discriminate|].
  assert (Q : forall w, In w [x; y; z] -> PrimFloat.eqb w w = false) by (intros w [<-|[<-|[<-|[]]]]; assumption).
  intros d [<-|[<-|[]]]; exists [x; y; z]; (split; [reflexivity|]; split; [discriminate|exact Q]).
Qed.

(** Swaths by cells are drawn as the list of all of them, up to 2^31 - 1 swaths. *)
Theorem sbc_drawn : forall (N : Num) (s : list (list (swath (point N) N))) given,
  (Z.of_nat (length (concat s)) < 2147483648)%Z -> plot_sbc N s given = plot_swaths N (concat s) given.
Proof.
  intros N s given L. unfold plot_sbc, plot_swaths. rewrite (sbc_sizeTotal_spec s L), Nat2Z.id.
  destruct (colors_or N given (length (concat s))) as [colors| | |]; cbn [bind]; auto.
  unfold draw_all. f_equal.
  assert (G : forall l, (forall i, In i l -> i < length (concat s)) ->
    mapM (fun i => do x <- sbc_getSwath s i; do c <- vec_index colors i; plot_swath N x c) l =
    mapM (fun i => do x <- vec_index (concat s) i; do c <- vec_index colors i; plot_swath N x c) l).
  { induction l as [|i l IH]; intros B; [reflexivity|]. cbn [mapM]. rewrite IH by (intros; apply B; now right).
    rewrite sbc_getSwath_spec.
    assert (V : vec_index (concat s) i = match nth_error (concat s) i with Some a => Ok a | None => UB end) by reflexivity. rewrite V.
    destruct (nth_error (concat s) i) eqn:E; [reflexivity|].
    apply nth_error_None in E. specialize (B i (or_introl eq_refl)). lia. }
  apply G. intros i I. apply in_seq in I. lia.
Qed.

Example sbc_drawn_ex : plot_sbc FNum [[]; [sw1]] [[1; 0; 0]%float] = plot_swaths FNum [sw1] [[1; 0; 0]%float].
Proof. reflexivity. Qed.

(** Several sets of swaths (and several routes) are drawn in the colours of the palette
    whatever colours are given. *)
Theorem groups_ignore_colors : forall (N : Num) (vs : list (list (list (swath (point N) N)))) (rs : list (route (point N) N)) c1 c2,
  plot_vsbc N vs c1 = plot_vsbc N vs c2 /\ plot_routes N rs c1 = plot_routes N rs c2.
Proof. intros. split; reflexivity. Qed.

(** Several sets of swaths are all drawn, set by set, the i-th in colours between the two of
    its ramp. *)
Theorem groups_drawn : forall (N : Num) (vs : list (list (list (swath (point N) N)))) given,
  (forall v, In v vs -> (Z.of_nat (length (concat v)) < 2147483648)%Z) ->
  exists ds, plot_vsbc N vs given = Ok ds /\
    one_by_one (fun i v ch => exists colors,
      color_linspace N (fst (ramp i)) (snd (ramp i)) (length (concat v)) = Ok colors /\
      one_by_one (fun k x ch => exists c, nth_error colors k = Some c /\ with_arrow (sw_path x) c ch) (concat v) ch) vs ds.
Proof.
  intros N vs given B. unfold plot_vsbc. apply draw_ok with (l := vs). intros i v V.
  assert (Bv : (Z.of_nat (length (concat v)) < 2147483648)%Z) by (apply B; eapply nth_error_In; eassumption).
  change (length palette) with 12.
  assert (M0 : (2 * i) mod 12 = 2 * (i mod 6)) by (change 12 with (2 * 6); apply Nat.mul_mod_distr_l; lia).
  assert (M1 : (2 * i + 1) mod 12 = 2 * (i mod 6) + 1).
  { rewrite Nat.add_mod, M0 by lia. change (1 mod 12) with 1. apply Nat.mod_small.
    pose proof (Nat.mod_upper_bound i 6). lia. }
  rewrite M0, M1. assert (L6 : i mod 6 < 6) by (apply Nat.mod_upper_bound; lia).
  destruct (index_lt palette (2 * (i mod 6))) as [a [Ea Fa]]; [change (length palette) with 12; lia|].
  destruct (index_lt palette (2 * (i mod 6) + 1)) as [b [Eb Fb]]; [change (length palette) with 12; lia|].
  assert (P3 : forall c, In c palette -> 3 <= length c).
  { intros c C. unfold palette in C. cbn [In] in C. repeat destruct C as [<-|C]; try destruct C; cbn; lia. }
  rewrite Ea, Eb; cbn [bind]. unfold vec_index at 1. rewrite V; cbn [bind]. rewrite (sbc_sizeTotal_spec v Bv), Nat2Z.id.
  destruct (color_linspace_spec (N := N) a b (length (concat v)) (P3 a (nth_error_In _ _ Fa)) (P3 b (nth_error_In _ _ Fb))) as [colors [Ec [Lc _]]].
  rewrite Ec; cbn [bind]. rewrite sbc_drawn by exact Bv.
  destruct (swaths_drawn N (concat v) colors) as [H _]. destruct H as [cs [ds [E [G [_ O]]]]]; [right; lia|].
  assert (Rm : a = fst (ramp i) /\ b = snd (ramp i)).
  { unfold ramp. destruct (i mod 6) as [|[|[|[|[|[|k]]]]]]; [..|lia]; cbn in Fa, Fb |- *; injection Fa as <-; injection Fb as <-; split; reflexivity. }
  exists ds. split; [exact E|]. exists colors. split; [destruct Rm as [<- <-]; exact Ec|].
  destruct colors as [|c colors].
  - cbn [length] in Lc. destruct (concat v); [|discriminate]. destruct O as [ch [O1 [O2 _]]]. exists ch.
    split; [exact O1|]. split; [exact O2|]. intros [|k] x c X; discriminate.
  - rewrite G in O by discriminate. exact O.
Qed.

Example groups_drawn_ex : exists ds, plot_vsbc FNum [[[sw1; sw1]; []]; []; [[sw1; sw1]]] [] = Ok ds /\ length ds = 8.
Proof. eexists; split; [reflexivity|reflexivity]. Qed.

Theorem groups_colors_refuted : exists (vs : list (list (list (swath (point FNum) FNum)))) given ds,
  length given = length (concat (concat vs)) /\ plot_vsbc FNum vs given = Ok ds /\ ds <> [] /\
  forall d c, In d ds -> dr_color d = Some c -> ~ In c given.
Proof.
  exists [[[sw1; sw1]]], [[1; 0; 0]%float; [1; 0; 0]%float].
  destruct (groups_drawn FNum [[[sw1; sw1]]] [[1; 0; 0]%float; [1; 0; 0]%float]) as [ds [E _]].
  { intros v [<-|[]]. reflexivity. }
  exists ds. split; [reflexivity|]. split; [exact E|].
  assert (G : forallb (fun d : drawn FNum => match dr_color d with Some (x :: _) => negb (PrimFloat.eqb x 1) | _ => false end) ds = true /\ length ds = 4).
  { assert (Q : match plot_vsbc FNum [[[sw1; sw1]]] [[1; 0; 0]%float; [1; 0; 0]%float] with
        Ok ds => forallb (fun d : drawn FNum => match dr_color d with Some (x :: _) => negb (PrimFloat.eqb x 1) | _ => false end) ds && (length ds =? 4) | _ => false end = true) by (vm_compute; reflexivity).
    rewrite E in Q. apply andb_true_iff in Q as [Q1 Q2]. apply Nat.eqb_eq in Q2. auto. }
  destruct G as [G L]. split; [intros ->; discriminate|].
  intros d c D C I. rewrite forallb_forall in G. specialize (G d D). rewrite C in G.
  destruct I as [<-|[<-|[]]]; discriminate G.
Qed.

(** *** Paths *)
(** A path of two or more states is drawn as curves that together go through the start and
    the end of every state once, in order.  A curve goes on up to and including the first
    state of another type or direction.  The curves are drawn in the colours given, or in
    as many made ones; with some colours but fewer than curves it is undefined behaviour.
    Shorter paths are not drawn. *)
Theorem path_drawn : forall (N : Num) (cosf sinf : N -> N) (path : list (pstate N)) given,
  (length path <= 1 -> plot_path N cosf sinf path given = Ok []) /\
  forall s0 s1 l, path = s0 :: s1 :: l -> exists groups, grouped (kind s0) path groups /\ concat groups = path /\
    (given = [] \/ length groups <= length given ->
     exists colors ds, plot_path N cosf sinf path given = Ok ds /\ (given <> [] -> colors = given) /\ length groups <= length colors /\
      one_by_one (fun i g ch => exists c, nth_error colors i = Some c /\
        ch = [mkDrawn (Curve (flat_map (fun s => [px (ps_point s); px (ps_atEnd N cosf sinf s)]) g)
                             (flat_map (fun s => [py (ps_point s); py (ps_atEnd N cosf sinf s)]) g)) (Some (nofZ N 1)) (Some c)]) groups ds) /\
    (given <> [] -> length given < length groups -> plot_path N cosf sinf path given = UB).
Proof.
  intros N cosf sinf path given. split.
  { intros L. unfold plot_path. apply Nat.leb_le in L. now rewrite L. }
  intros s0 s1 l E. destruct (path_sections_spec cosf sinf s0 path) as [gs [G S_]]. exists gs. split; [exact G|].
  split. { clear -G. induction G as [|k m s l gs H1 H2 G IH]; cbn [concat]; [now rewrite app_nil_r|]. rewrite IH, <- app_assoc. reflexivity. }
  assert (Ep : plot_path N cosf sinf path given = do colors <- colors_or N given (length gs);
      draw_all N (fun i => do s <- vec_index (map (states_xy cosf sinf) gs) i; do c <- vec_index colors i;
        Ok [mkDrawn (Curve (fst s) (snd s)) (Some (nofZ N 1)) (Some c)]) (seq 0 (length gs))).
  { unfold plot_path. assert (L : (length path <=? 1) = false) by (rewrite E; reflexivity). rewrite L.
    assert (V : vec_index path 0 = Ok s0) by (rewrite E; reflexivity). rewrite V. cbn [bind]. cbv zeta. rewrite S_, map_length. reflexivity. }
  rewrite Ep. destruct (colors_or_length given (length gs)) as [colors [-> [G1 G2]]]; cbn [bind]. split.
  - intros H. assert (L : length gs <= length colors).
    { destruct given as [|g given]; [rewrite G2 by reflexivity; lia|]. destruct H as [H|H]; [discriminate|]. now rewrite G1 by discriminate. }
    exists colors. match goal with |- context [draw_all N ?f _] => destruct (draw_ok (fun i g ch => exists c, nth_error colors i = Some c /\
        ch = [mkDrawn (Curve (flat_map (fun s => [px (ps_point s); px (ps_atEnd N cosf sinf s)]) g)
                             (flat_map (fun s => [py (ps_point s); py (ps_atEnd N cosf sinf s)]) g)) (Some (nofZ N 1)) (Some c)]) f gs) as [ds [Ed O]] end.
    + intros i g X. destruct (index_lt colors i) as [c [Ec C]].
      { assert (i < length gs) by (apply nth_error_Some; rewrite X; discriminate). lia. }
      unfold vec_index at 1. rewrite nth_error_map, X; cbn [option_map bind]. rewrite Ec; cbn [bind].
      eexists; split; [reflexivity|]. exists c. split; [exact C|]. reflexivity.
    + exists ds. split; [exact Ed|]. split; [exact G1|]. split; [exact L|exact O].
  - intros Ng L. rewrite (G1 Ng). apply draw_ub with (length given); [| |exact L].
    + intros i I. destruct (index_lt (map (states_xy cosf sinf) gs) i) as [x [Ex _]]; [rewrite map_length; lia|]. destruct (index_lt given i I) as [c [Ec _]].
      rewrite Ex; cbn [bind]; rewrite Ec; cbn [bind]. eexists; reflexivity.
    + destruct (index_lt (map (states_xy cosf sinf) gs) (length given)) as [x [Ex _]]; [rewrite map_length; lia|]. rewrite Ex; cbn [bind]. unfold vec_index.
      destruct (nth_error given (length given)) eqn:Q; [|reflexivity]. exfalso.
      assert (length given < length given) by (apply nth_error_Some; rewrite Q; discriminate). lia.
Qed.

Definition st (x : Z) (t : Z) : pstate FNum := mkPS (N := FNum) (mkPoint (N := FNum) (float_of_Z x) 0 0)%float 0%float 1%float 1%Z t 1%float.

(** The curves do not follow the kinds of states: the first state of a turn (at 2) is in the
    curve of the swath before it, and a curve without points is drawn when the last state is
    the only one of its kind. *)
Theorem path_curves_refuted : exists (path : list (pstate FNum)) given ds d0 d2,
  map (fun s => ps_type s) path = [1; 1; 2; 2; 1]%Z /\ length given = 3 /\
  plot_path FNum (fun _ => 1%float) (fun _ => 0%float) path given = Ok ds /\ nth_error ds 0 = Some d0 /\ nth_error ds 2 = Some d2 /\
  dr_shape d0 = Curve (N := FNum) [0; 1; 1; 2; 2; 3]%float [0; 0; 0; 0; 0; 0]%float /\ dr_shape d2 = Curve (N := FNum) [] [].
Proof.
  exists [st 0 1; st 1 1; st 2 2; st 3 2; st 4 1], [[1; 0; 0]; [0; 1; 0]; [0; 0; 1]]%float.
  do 3 eexists. split; [reflexivity|]. split; [reflexivity|]. split; [reflexivity|]. split; [reflexivity|]. split; [reflexivity|].
  split; [|reflexivity]. reflexivity.
Qed.

Example path_drawn_ex : exists ds, plot_path FNum (fun _ => 1%float) (fun _ => 0%float) [st 0 1; st 1 1; st 2 1] [[1; 0; 0]%float] = Ok ds /\ length ds = 1 /\
  plot_path FNum (fun _ => 1%float) (fun _ => 0%float) [st 0 1; st 1 2; st 2 1] [[1; 0; 0]%float] = UB.
Proof. eexists; split; [reflexivity|]. split; reflexivity. Qed.

(** *** Points *)
(** A point is drawn without a colour if the colour has fewer than three components, in the
    colour if it has three; more are undefined behaviour. *)
Theorem point_drawn : forall (N : Num) (p : point N) c,
  (length c < 3 -> plot_point N p c = Ok [mkDrawn (Marks [px p] [py p]) None None]) /\
  (length c = 3 -> plot_point N p c = Ok [mkDrawn (Marks [px p] [py p]) None (Some c)]) /\
  (3 < length c -> plot_point N p c = UB).
Proof.
  intros N p c. unfold plot_point, plot_xy. destruct (Nat.ltb_spec (length c) 3), (Nat.leb_spec (length c) 3); repeat split; intros; try lia; reflexivity.
Qed.

(** Giving a colour with an alpha component, as for lines, is undefined behaviour for points. *)
Theorem point_alpha_refuted : exists (p : point FNum) (c : list float), length c = 4 /\ plot_point FNum p c = UB /\
  exists d, plot_line FNum [p] c = Ok [d] /\ dr_color d = Some c.
Proof.
  exists (mkPoint (N := FNum) 0 0 0)%float, [1; 0; 0; 1]%float. split; [reflexivity|]. split; [reflexivity|]. eexists; split; reflexivity.
Qed.

(** Several points and lines are drawn one by one. *)
Theorem points_drawn : forall (N : Num) (ps : list (point N)) c, length c <= 3 ->
  exists ds, plot_points N ps c = Ok ds /\ one_by_one (fun _ p ch => plot_point N p c = Ok ch) ps ds.
Proof.
  intros N ps c L. unfold plot_points. apply draw_ok with (l := ps). intros i p E.
  unfold line_getGeometry, vec_at. rewrite E; cbn [bind].
  destruct (point_drawn N p c) as [P1 [P2 _]]. destruct (Nat.eq_dec (length c) 3) as [Q|Q].
  - rewrite P2 by exact Q. eexists; split; reflexivity.
  - rewrite P1 by lia. eexists; split; reflexivity.
Qed.

Example points_drawn_ex : exists ds, plot_points FNum [mkPoint (N := FNum) 1 2 0; mkPoint (N := FNum) 3 4 0]%float [] = Ok ds /\ length ds = 2.
Proof. eexists; split; reflexivity. Qed.

(** *** Cells and fields *)
Lemma visited_parts {N : Num} (l : list (list (point N))) : firstn (coll_size (line_isEmpty N) l) l = visited l.
Proof.
  rewrite firstn_coll. unfold visited. destruct (forallb (line_isEmpty N) l) eqn:E.
  - replace (concat l) with (@nil (point N)); [reflexivity|]. symmetry. rewrite forallb_forall in E.
    induction l as [|x l IH]; [reflexivity|]. cbn [concat]. assert (X : line_isEmpty N x = true) by (apply E; now left).
    destruct x; [|discriminate]. apply IH. intros; apply E; now right.
  - destruct (concat l) as [|p ps] eqn:C; [|reflexivity]. exfalso.
    assert (F : forallb (line_isEmpty N) l = true); [|congruence]. apply forallb_forall. intros x X.
    destruct x as [|q x]; [reflexivity|]. exfalso. assert (I : In q (concat l)) by (apply in_concat; exists (q :: x); split; [exact X|now left]).
    rewrite C in I. destruct I.
Qed.

Lemma visited_cells_parts {N : Num} (l : list (list (list (point N)))) : firstn (coll_size (cell_isEmpty N) l) l = visited_cells l.
Proof.
  assert (CE : forall c : list (list (point N)), cell_isEmpty N c = true <-> concat c = []).
  { intros c. unfold cell_isEmpty. rewrite forallb_forall. split.
    - induction c as [|x c IH]; intros E; [reflexivity|]. cbn [concat]. assert (X : line_isEmpty N x = true) by (apply E; now left).
      destruct x; [|discriminate]. apply IH. intros; apply E; now right.
    - intros C x X. destruct x as [|q x]; [reflexivity|]. exfalso.
      assert (I : In q (concat c)) by (apply in_concat; exists (q :: x); split; [exact X|now left]). rewrite C in I. destruct I. }
  rewrite firstn_coll. unfold visited_cells. destruct (forallb (cell_isEmpty N) l) eqn:E.
  - replace (concat (map (@concat (point N)) l)) with (@nil (point N)); [reflexivity|]. symmetry. rewrite forallb_forall in E.
    induction l as [|x l IH]; [reflexivity|]. cbn [map concat]. rewrite (proj1 (CE x)) by (apply E; now left).
    apply IH. intros; apply E; now right.
  - destruct (concat (map (@concat (point N)) l)) as [|p ps] eqn:C; [|reflexivity]. exfalso.
    assert (F : forallb (cell_isEmpty N) l = true); [|congruence]. apply forallb_forall. intros x X. apply CE.
    destruct (concat x) as [|q x'] eqn:Q; [reflexivity|]. exfalso.
    assert (I : In q (concat (map (@concat (point N)) l))) by (apply in_concat; exists (concat x); split; [now apply in_map|rewrite Q; now left]).
    rewrite C in I. destruct I.
Qed.

(** Lines, cells and fields are drawn as one curve for every line or ring. *)
Theorem cells_drawn : forall (N : Num) (ls : list (list (point N))) (f : field N) c,
  (exists ds, plot_lines N ls c = Ok ds /\ one_by_one (fun _ r ch => exists d, ch = [d] /\ curve_through r c d) (visited ls) ds) /\
  (exists ds, plot_field N f c = Ok ds /\ plot_cells N (f_cells f) c = Ok ds /\
     one_by_one (fun _ x ch => one_by_one (fun _ r ch => exists d, ch = [d] /\ curve_through r c d) (visited x) ch) (visited_cells (f_cells f)) ds).
Proof.
  intros N ls f c. split.
  - unfold plot_lines. assert (L : coll_size (line_isEmpty N) ls = length (visited ls)).
    { rewrite <- visited_parts, firstn_length. unfold coll_size. destruct (forallb _ ls); lia. }
    rewrite L. apply draw_ok with (l := visited ls). intros i r X.
    assert (G : coll_getGeometry (line_isEmpty N) ls i = Ok r).
    { assert (I : i < length (visited ls)) by (apply nth_error_Some; rewrite X; discriminate). unfold coll_getGeometry. rewrite L.
      assert (Q : (i <? length (visited ls)) = true) by now apply Nat.ltb_lt.
      unfold visited in *. destruct (concat ls); [destruct i; discriminate|]. rewrite ?Q. unfold vec_at, vec_index. rewrite ?X.
      try (apply Nat.leb_gt in I; rewrite ?I). reflexivity. }
    rewrite G; cbn [bind]. destruct (plot_line_spec r c) as [d [E D]]. exists [d]. split; [exact E|]. now exists d.
  - unfold plot_field, plot_cells. rewrite visited_cells_parts.
    destruct (draw_each (fun x ch => one_by_one (fun _ r ch => exists d, ch = [d] /\ curve_through r c d) (visited x) ch)
      (fun x => plot_cell N x c) (visited_cells (f_cells f))) as [ds [E O]].
    + intros x _. unfold plot_cell. rewrite visited_parts. apply (draw_each (fun r ch => exists d, ch = [d] /\ curve_through r c d)).
      intros r _. destruct (plot_line_spec r c) as [d [E D]]. exists [d]. split; [exact E|]. now exists d.
    + exists ds. split; [exact E|]. split; [exact E|exact O].
Qed.

Definition ring1 : list (point FNum) := [mkPoint (N := FNum) 0 0 0; mkPoint (N := FNum) 9 0 0; mkPoint (N := FNum) 0 9 0; mkPoint (N := FNum) 0 0 0]%float.
Definition hole1 : list (point FNum) := [mkPoint (N := FNum) 1 1 0; mkPoint (N := FNum) 2 1 0; mkPoint (N := FNum) 1 2 0; mkPoint (N := FNum) 1 1 0]%float.

Example cells_drawn_ex : exists ds, plot_cells FNum [[ring1; hole1]; []] [] = Ok ds /\ length ds = 2 /\ plot_cells FNum [[[]]] [] = Ok [].
Proof. eexists; split; [reflexivity|]. split; reflexivity. Qed.

(** Filling cells fills the border of every cell and then its holes, in the two colours;
    with one colour given the holes are filled in white. *)
Theorem cells_filled : forall (N : Num) (cells : list (list (list (point N)))) poly holes,
  (exists ds, plotFilled_cells N cells poly holes = Ok ds /\ one_by_one (fun _ => filled_cell poly holes) (visited_cells cells) ds) /\
  (exists ds, plotFilled_cells1 N cells poly = Ok ds /\
     one_by_one (fun _ => filled_cell poly [nofZ N 1; nofZ N 1; nofZ N 1]) (visited_cells cells) ds).
Proof.
  intros N cells poly.
  assert (C : forall holes x, exists ds, plotFilled_cell N x poly holes = Ok ds /\ filled_cell poly holes x ds).
  { intros holes x. unfold plotFilled_cell.
    assert (L : coll_size (line_isEmpty N) x = length (visited x)).
    { rewrite <- visited_parts, firstn_length. unfold coll_size. destruct (forallb _ x); lia. }
    rewrite L. unfold visited. destruct (concat x) as [|p ps] eqn:Q; [exists []; split; [reflexivity|left; auto]|].
    destruct x as [|border rest]; [discriminate|]. cbn [length Nat.ltb Nat.leb exterior vec_index nth_error bind].
    replace (S (length rest) - 1) with (length rest) by lia.
    destruct (draw_ok (fun _ r ch => ch = plotFilled_ring N r holes)
      (fun i => do h <- vec_index (border :: rest) (i + 1); Ok (plotFilled_ring N h holes)) rest) as [dh [E [ch [Ec [Lc O]]]]].
    - intros i r X. unfold vec_index. rewrite Nat.add_1_r. cbn [nth_error]. rewrite X; cbn [bind]. eexists; split; reflexivity.
    - rewrite E; cbn [bind]. eexists; split; [reflexivity|]. right. exists border, rest. do 2 eexists.
      split; [rewrite Q; discriminate|]. split; [reflexivity|]. split; [|split; [reflexivity|]]; [split; reflexivity|].
      rewrite Ec. clear -Lc O. revert ch Lc O. induction rest as [|r rest IH]; intros [|c ch] Lc O; try discriminate; [constructor|].
      rewrite (O 0 r c eq_refl eq_refl). cbn [concat app plotFilled_ring]. constructor; [split; reflexivity|].
      apply IH; [now injection Lc|]. intros i x y X Y. exact (O (S i) x y X Y). }
  intros holes. unfold plotFilled_cells, plotFilled_cells1. rewrite visited_cells_parts. split.
  - apply (draw_each (filled_cell poly holes)). intros x _. apply C.
  - apply (draw_each (filled_cell poly [nofZ N 1; nofZ N 1; nofZ N 1])). intros x _. apply C.
Qed.

Example cells_filled_ex : exists d1 d2, plotFilled_cells FNum [[ring1; hole1]] [1; 0; 0]%float [0; 0; 1]%float = Ok [d1; d2] /\
  filled_with ring1 [1; 0; 0]%float d1 /\ filled_with hole1 [0; 0; 1]%float d2.
Proof. do 2 eexists. split; [reflexivity|]. split; (split; reflexivity). Qed.

(** [plotFilled] fills no field: it draws what [plot] draws. *)
Theorem field_filled_refuted : exists (f : field FNum) c ds, plotFilled_field FNum f c = Ok ds /\ f_cells f = [[ring1]] /\
  length ds = 1 /\ forall d x y, In d ds -> dr_shape d <> Filled x y.
Proof.
  exists (mkField [] [] [] (mkPoint (N := FNum) 0 0 0)%float [[ring1]]), []. eexists. split; [reflexivity|]. split; [reflexivity|].
  split; [reflexivity|]. intros d x y [<-|[]]. discriminate.
Qed.

(** Filling a cell in one colour fills its holes as well, unlike filling cells; and a cell
    without rings is undefined behaviour. *)
Theorem cell_filled_refuted : exists (cell : list (list (point FNum))) poly d d1 d2,
  plotFilled_cell1 FNum cell poly = Ok [d] /\ plotFilled_cells1 FNum [cell] poly = Ok [d1; d2] /\ d = d1 /\
  length cell = 2 /\ plotFilled_cell1 FNum [] poly = UB /\ plotFilled_cell FNum [] poly poly = Ok [].
Proof. exists [ring1; hole1], [1; 0; 0]%float. do 3 eexists. repeat split. Qed.

(** What is drawn instead: a curve for every ring of the field, and the border of a cell
    with rings filled. *)
Theorem filled_outlines : forall (N : Num) (f : field N) (border : list (point N)) rest c,
  (exists ds, plotFilled_field N f c = Ok ds /\
     one_by_one (fun _ x ch => one_by_one (fun _ r ch => exists d, ch = [d] /\ curve_through r c d) (visited x) ch) (visited_cells (f_cells f)) ds) /\
  (exists d, plotFilled_cell1 N (border :: rest) c = Ok [d] /\ filled_with border c d).
Proof.
  intros N f border rest c. split.
  - destruct (cells_drawn N [] f c) as [_ [ds [_ H]]]. exists ds. exact H.
  - eexists. split; [reflexivity|]. split; reflexivity.
Qed.
Print Assumptions filled_outlines.

Example filled_outlines_ex : exists d1 d2 d, plotFilled_field FNum (mkField [] [] [] (mkPoint (N := FNum) 0 0 0)%float [[ring1; hole1]]) [1; 0; 0]%float = Ok [d1; d2] /\
  curve_through ring1 [1; 0; 0]%float d1 /\ plotFilled_cell1 FNum [ring1; hole1] [0; 0; 1]%float = Ok [d] /\ filled_with ring1 [0; 0; 1]%float d.
Proof.
  do 3 eexists. split; [reflexivity|]. split; [|split; [reflexivity|split; reflexivity]].
  split; [reflexivity|]. split; [reflexivity|]. split; [reflexivity|]. intro H. cbn [length] in H. lia.
Qed.

(** *** Routes *)
(** A route is drawn as the curve through its points and connections, followed by its
    swaths. *)
Theorem route_drawn : forall (N : Num) (r : route (point N) N) given l,
  r_asLineString r = Ok l -> (Z.of_nat (length (concat (r_swaths r))) < 2147483648)%Z ->
  given = [] \/ length (concat (r_swaths r)) <= length given ->
  exists d colors ds, plot_route N r given = Ok (d :: ds) /\ curve_through l [] d /\ (given <> [] -> colors = given) /\
    one_by_one (fun i x ch => exists c, nth_error colors i = Some c /\ with_arrow (sw_path x) c ch) (concat (r_swaths r)) ds.
Proof.
  intros N r given l E B G. unfold plot_route. rewrite E; cbn [bind]. destruct (plot_line_spec l []) as [d [-> D]]; cbn [bind].
  rewrite sbc_drawn by exact B. destruct (swaths_drawn N (concat (r_swaths r)) given) as [H _].
  destruct (H G) as [colors [ds [-> [H1 [_ H2]]]]]; cbn [bind]. exists d, colors, ds. split; [reflexivity|]. split; [exact D|]. split; [exact H1|exact H2].
Qed.

Example route_drawn_ex : exists ds, plot_route FNum (mkRoute [[sw1; sw1]] [[]]) [] = Ok ds /\ length ds = 5.
Proof. eexists; split; reflexivity. Qed.

(** Several routes: first the lines of all of them, then their swaths as those of several
    sets. *)
Theorem routes_drawn : forall (N : Num) (rs : list (route (point N) N)) given,
  (forall r, In r rs -> exists l, r_asLineString r = Ok l) ->
  (forall r, In r rs -> (Z.of_nat (length (concat (r_swaths r))) < 2147483648)%Z) ->
  exists lines ds, plot_routes N rs given = Ok (lines ++ ds) /\
    Forall2 (fun r d => exists l, r_asLineString r = Ok l /\ curve_through l [] d) rs lines /\
    plot_vsbc N (map (@r_swaths (point N) N) rs) [] = Ok ds.
Proof.
  intros N rs given L B. unfold plot_routes.
  destruct (draw_each (fun r ch => exists l d, r_asLineString r = Ok l /\ curve_through l [] d /\ ch = [d])
    (fun r => do l <- r_asLineString r; plot_line N l []) rs) as [ls [E [ch [Ec [Lc O]]]]].
  - intros r I. destruct (L r I) as [l El]. rewrite El; cbn [bind]. destruct (plot_line_spec l []) as [d [E D]].
    exists [d]. split; [exact E|]. exists l, d. auto.
  - rewrite E; cbn [bind]. destruct (groups_drawn N (map (@r_swaths (point N) N) rs) given) as [ds [Ed _]].
    { intros v V. apply in_map_iff in V as [r [<- I]]. now apply B. }
    rewrite Ed; cbn [bind]. exists ls, ds. split; [reflexivity|]. split; [|exact Ed].
    rewrite Ec. clear -Lc O. revert ch Lc O. induction rs as [|r rs IH]; intros [|c ch] Lc O; try discriminate; [constructor|].
    destruct (O 0 r c eq_refl eq_refl) as [l [d [El [D ->]]]]. cbn [concat app]. constructor; [exists l; auto|].
    apply IH; [now injection Lc|]. intros i x y X Y. exact (O (S i) x y X Y).
Qed.

Example routes_drawn_ex : exists ds, plot_routes FNum [mkRoute [[sw1; sw1]] [[]]; mkRoute [[sw1; sw1]] [[]]] [] = Ok ds /\ length ds = 10.
Proof. eexists; split; reflexivity. Qed.

Print Assumptions linspace_even.
Print Assumptions colors_even.
Print Assumptions swaths_drawn.
Print Assumptions single_swath_color_refuted.
Print Assumptions sbc_drawn.
Print Assumptions groups_ignore_colors.
Print Assumptions groups_drawn.
Print Assumptions groups_colors_refuted.
Print Assumptions path_drawn.
Print Assumptions path_curves_refuted.
Print Assumptions point_drawn.
Print Assumptions point_alpha_refuted.
Print Assumptions points_drawn.
Print Assumptions cells_drawn.
Print Assumptions cells_filled.
Print Assumptions field_filled_refuted.
Print Assumptions cell_filled_refuted.
Print Assumptions route_drawn.
Print Assumptions routes_drawn.
