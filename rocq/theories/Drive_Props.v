(** Theorems about the cost of driving parallel rows in an order (properties C304 to C307). *)
From Coq Require Import List Arith ZArith Lia Bool Reals Lra Psatz Permutation Sorted.
From Verif Require Import Outcome ListAux Num Point_Model Angle_Model Angle_Spec Swath_Model Swath_Spec Swath_Proofs Swath_Proofs2 Swath_Props.
From Verif Require Import Objective_Model Objective_Spec Objective_Proofs Drive_Spec.
Import ListNotations.
Open Scope R_scope.

Notation origin := (mkPoint (N := RNum) 0 0 0).
(** The cost that objectives of distance give a list of swaths. *)
Notation dcost angle := (rp_cost_swaths (W := R) RNum origin angle p_distance (direct_cost4 RNum p_distance)).

Lemma sorted_same (l m : list (swath pt R)) : Permutation l m ->
  StronglySorted (fun a b => (sw_id a <= sw_id b)%Z) l -> StronglySorted (fun a b => (sw_id a < sw_id b)%Z) m -> l = m.
Proof.
  revert m. induction l as [|a l IH]; intros [|b m] Q S1 S2; auto.
  - apply Permutation_length in Q. discriminate.
  - apply Permutation_length in Q. discriminate.
  - inversion S1 as [|? ? S1' F1]; inversion S2 as [|? ? S2' F2]; subst. rewrite Forall_forall in F1, F2.
    assert (a = b).
    { pose proof (Permutation_in _ Q (or_introl eq_refl)) as [E|I]; [auto|].
      pose proof (Permutation_in _ (Permutation_sym Q) (or_introl eq_refl)) as [E|I']; [auto|].
      apply F2 in I. apply F1 in I'. lia. }
    subst b. f_equal. apply IH; auto. eapply Permutation_cons_inv; eauto.
Qed.

(** Distance of two rows, and of two ends on the same side. *)
Section Rows.
  Variables (o d n : pt) (w : R).
  Hypothesis U : unit_across d n.
  Hypothesis Hw : 0 <= w.

  Definition height (p : pt) : R := (px p - px o) * px n + (py p - py o) * py n.
  Lemma height_dist p q : Rabs (height p - height q) <= p_distance p q.
  Proof.
    destruct U as [U1 _]. unfold p_distance. rewrite <- sqrt_Rsqr_abs. apply sqrt_le_1_alt. unfold Rsqr, height.
    set (u := px p - px q). set (v := py p - py q).
    replace ((px p - px o) * px n + (py p - py o) * py n - ((px q - px o) * px n + (py q - py o) * py n)) with (u * px n + v * py n) by (unfold u, v; ring).
    assert (E : u * u + v * v - (u * px n + v * py n) * (u * px n + v * py n) = (u * py n - v * px n) * (u * py n - v * px n)).
    { transitivity ((u * u + v * v) * (px n * px n + py n * py n) - (u * px n + v * py n) * (u * px n + v * py n)); [rewrite U1; ring|ring]. }
    pose proof (Rle_0_sqr (u * py n - v * px n)) as S. unfold Rsqr in S. lra.
  Qed.

  (** Both ends of a row are at its height. *)
  Lemma row_height c j s : row o d n w c j s -> exists x y, sw_path s = [x; y] /\ height x = INR j * w /\ height y = INR j * w /\ p_distance x y = norm d.
  Proof.
    intros (a & b & A1 & A2 & B1 & B2 & H). destruct U as [U1 U2].
    assert (Ha : height a = INR j * w).
    { unfold height. rewrite A1, A2. transitivity (INR j * w * (px n * px n + py n * py n)); [ring|]. rewrite U1. ring. }
    assert (Hb : height b = INR j * w).
    { transitivity (height a + (px d * px n + py d * py n)); [unfold height; rewrite B1, B2; ring|]. rewrite U2, Ha. ring. }
    destruct H as [[_ E]|[_ E]]; [exists a, b|exists b, a]; (split; [exact E|]); (split; [auto|]); (split; [auto|]);
      unfold p_distance, norm; f_equal; rewrite B1, B2; ring.
  Qed.

  Lemma absdiff j k : Rabs (INR j * w - INR k * w) = INR ((j - k) + (k - j)) * w.
  Proof.
    destruct (le_lt_dec j k) as [L|L].
    - replace ((j - k) + (k - j))%nat with (k - j)%nat by lia. rewrite minus_INR by lia.
      apply le_INR in L. rewrite Rabs_left1 by nra. ring.
    - replace ((j - k) + (k - j))%nat with (j - k)%nat by lia. rewrite minus_INR by lia.
      apply lt_INR in L. rewrite Rabs_right by nra. ring.
  Qed.

  Lemma sqrt_side t : 0 <= t -> R_sqrt.sqrt (t * px n * (t * px n) + t * py n * (t * py n)) = t.
  Proof.
    destruct U as [U1 _]. intro T. replace (t * px n * (t * px n) + t * py n * (t * py n)) with (t * t * (px n * px n + py n * py n)) by ring.
    rewrite U1, Rmult_1_r. apply sqrt_square. auto.
  Qed.

  Lemma side_dist j k (x y : pt) e f : px x = px o + INR j * w * px n + e -> py x = py o + INR j * w * py n + f ->
    px y = px o + INR k * w * px n + e -> py y = py o + INR k * w * py n + f -> p_distance x y = INR ((j - k) + (k - j)) * w.
  Proof.
    intros X1 X2 Y1 Y2. rewrite <- absdiff. rewrite <- (sqrt_side (Rabs (INR j * w - INR k * w))) by apply Rabs_pos.
    unfold p_distance. f_equal. set (t := INR j * w - INR k * w).
    replace (px x - px y) with (t * px n) by (rewrite X1, Y1; unfold t; ring).
    replace (py x - py y) with (t * py n) by (rewrite X2, Y2; unfold t; ring).
    assert (E : Rabs t * Rabs t = t * t) by (rewrite <- Rabs_mult; apply Rabs_right; pose proof (Rle_0_sqr t); unfold Rsqr in *; lra).
    transitivity (t * t * (px n * px n) + t * t * (py n * py n)); [ring|]. rewrite <- E. ring.
  Qed.

  (** From a row to one driven the other way round. *)
  Lemma row_jump c j k s t : row o d n w c j s -> row o d n w c k t -> sw_dir t = negb (sw_dir s) ->
    exists x y x' y', sw_path s = [x; y] /\ sw_path t = [x'; y'] /\ p_distance y x' = INR ((j - k) + (k - j)) * w.
  Proof.
    intros (a & b & A1 & A2 & B1 & B2 & H) (a' & b' & A1' & A2' & B1' & B2' & H') D.
    destruct H as [[E P]|[E P]]; destruct H' as [[E' P']|[E' P']]; rewrite E, E' in D; try (destruct c; discriminate).
    - exists a, b, b', a'. split; [auto|]. split; [auto|]. apply (side_dist j k _ _ (px d) (py d)); lra.
    - exists b, a, a', b'. split; [auto|]. split; [auto|]. apply (side_dist j k _ _ 0 0); lra.
  Qed.

  (** Length of rows driven one after the other, alternating. *)
  Lemma len_rows c js g : Forall2 (row o d n w c) js g -> alternates sw_dir g ->
    len p_distance (flat_map sw_path g) = INR (length g) * norm d + INR (hops js) * w.
  Proof.
    intro F. induction F as [|j s js g R F IH]; intro A; [cbn; ring|].
    assert (A' : alternates sw_dir g) by (intros i a b H1 H2; apply (A (S i) a b H1 H2)). specialize (IH A').
    destruct (row_height _ _ _ R) as (x & y & E & _ & _ & L).
    destruct F as [|k t js g R' F].
    - cbn [flat_map]. rewrite E. cbn. rewrite L. ring.
    - destruct (row_jump _ _ _ _ _ R R' (A 0%nat s t eq_refl eq_refl)) as (x1 & y1 & x' & y' & E1 & E' & J).
      rewrite E in E1. injection E1 as <- <-.
      change (flat_map sw_path (s :: t :: g)) with (sw_path s ++ flat_map sw_path (t :: g)). rewrite E.
      change (flat_map sw_path (t :: g)) with (sw_path t ++ flat_map sw_path g) in *. rewrite E' in *.
      change (len p_distance ([x; y] ++ [x'; y'] ++ flat_map sw_path g)) with (p_distance x y + (p_distance y x' + len p_distance ([x'; y'] ++ flat_map sw_path g))).
      rewrite IH, L, J. change (hops (j :: k :: js)) with ((j - k) + (k - j) + hops (k :: js))%nat.
      rewrite (plus_INR ((j - k) + (k - j))). change (length (s :: t :: g)) with (S (length (t :: g))). rewrite (S_INR (length (t :: g))). ring.
  Qed.

  (** No way to drive different rows is shorter than passing every row once. *)
  Lemma len_rows_min c js g : Forall2 (row o d n w c) js g -> NoDup js ->
    INR (length g) * norm d + INR (length g - 1) * w <= len p_distance (flat_map sw_path g).
  Proof.
    intro F. induction F as [|j s js g R F IH]; intro D; [cbn; lra|]. inversion D as [|? ? Nj D']; subst. specialize (IH D').
    destruct (row_height _ _ _ R) as (x & y & E & Hx & Hy & L).
    destruct F as [|k t js g R' F].
    - cbn [flat_map]. rewrite E. cbn. rewrite L. lra.
    - destruct (row_height _ _ _ R') as (x' & y' & E' & Hx' & Hy' & L').
      change (flat_map sw_path (s :: t :: g)) with (sw_path s ++ flat_map sw_path (t :: g)). rewrite E.
      change (flat_map sw_path (t :: g)) with (sw_path t ++ flat_map sw_path g) in *. rewrite E' in *.
      change (len p_distance ([x; y] ++ [x'; y'] ++ flat_map sw_path g)) with (p_distance x y + (p_distance y x' + len p_distance ([x'; y'] ++ flat_map sw_path g))).
      assert (J : w <= p_distance y x').
      { eapply Rle_trans; [|apply height_dist]. rewrite Hy, Hx', absdiff.
        assert (N1 : (1 <= (j - k) + (k - j))%nat) by (assert (j <> k) by (intros ->; apply Nj; left; auto); lia).
        apply le_INR in N1. change (INR 1) with 1 in N1. nra. }
      change (length (s :: t :: g) - 1)%nat with (length (t :: g)). change (length (s :: t :: g)) with (S (length (t :: g))).
      assert (G : INR (length (t :: g)) = INR (length (t :: g) - 1) + 1) by (rewrite <- S_INR; f_equal; cbn; lia).
      rewrite (S_INR (length (t :: g))). rewrite L. set (m := INR (length (t :: g) - 1)) in *. set (q := INR (length (t :: g))) in *.
      assert (Q : q * w = m * w + w) by (rewrite G; ring). lra.
  Qed.
End Rows.

Lemma rows_forall2 o d n w c l : rows o d n w c l <-> Forall2 (row o d n w c) (seq 0 (length l)) l.
Proof.
  enough (H : forall k, (forall j s, nth_error l j = Some s -> row o d n w c (k + j) s) <-> Forall2 (row o d n w c) (seq k (length l)) l) by exact (H 0%nat).
  induction l as [|s l IH]; intro k; cbn [length seq].
  - split; [constructor|]. intros _ [|j] s; discriminate.
  - split.
    + intro H. constructor; [specialize (H 0%nat s eq_refl); rewrite Nat.add_0_r in H; exact H|]. apply IH. intros j t E.
      specialize (H (S j) t E). rewrite Nat.add_succ_r in H. exact H.
    + intro H. inversion H as [|? ? ? ? R F]; subst. intros [|j] t E; cbn in E.
      * injection E as <-. rewrite Nat.add_0_r. exact R.
      * rewrite Nat.add_succ_r. apply (proj2 (IH (S k)) F j t E).
Qed.

Lemma row_same wkt o d n w c j s t : (forall p, In p (sw_path s) -> wkt p = p) -> row o d n w c j s -> same_swath wkt s t -> row o d n w c j t.
Proof.
  intros Hk (a & b & A1 & A2 & B1 & B2 & H) (_ & _ & S). exists a, b. repeat (split; [assumption|]).
  assert (M : map wkt (sw_path s) = sw_path s) by (rewrite <- (map_id (sw_path s)) at 2; apply map_ext_in; auto). rewrite M in S.
  destruct H as [[E P]|[E P]], S as [[E' P']|[E' P']]; rewrite P in P'; rewrite E in E'; cbn [rev app] in P'; auto.
  rewrite negb_involutive in E'. auto.
Qed.

Lemma rows_long o d n w c js g : Forall2 (row o d n w c) js g -> Forall long g.
Proof.
  induction 1 as [|j s js g R F IH]; constructor; auto. destruct R as (a & b & _ & _ & _ & _ & [[_ E]|[_ E]]); unfold long; rewrite E; cbn; lia.
Qed.

Lemma forall2_positions {A} (Q : nat -> A -> Prop) (pos : nat -> nat) (q : list A) : forall a,
  (forall i b, nth_error q i = Some b -> Q (pos (a + i)%nat) b) -> Forall2 Q (map pos (seq a (length q))) q.
Proof.
  induction q as [|x q IH]; intros a H; cbn [length seq map]; constructor.
  - specialize (H 0%nat x eq_refl). rewrite Nat.add_0_r in H. exact H.
  - apply IH. intros i b E. specialize (H (S i) b E). rewrite Nat.add_succ_r in H. exact H.
Qed.

(** The rows in the order of a strategy. *)
Lemma order_rows : forall w_nonpos w_zero p_default p_lt wkt sort_fn,
  (forall l, std_sorted swath_lt l (sort_fn l)) ->
  forall k (l l0 : list (swath pt R)) v r o d n w c, Permutation l l0 ->
  StronglySorted (fun a b => (sw_id a < sw_id b)%Z) l0 -> rows o d n w c l0 -> (forall s p, In s l -> In p (sw_path s) -> wkt p = p) ->
  genSortedSwaths w_nonpos w_zero p_default p_lt wkt sort_fn k l v = Ok r ->
  length r = length l /\
  Forall2 (row o d n w c) (map (fun i => variant_pos (N.odd v) (length l) (order_pos k (length l) i)) (seq 0 (length l))) r /\
  alternates sw_dir r.
Proof.
  intros wn wz pd lt wkt sf Hs k l l0 v r o d n w c Q S R K G.
  destruct (ordering_positions _ _ wn wz pd lt wkt sf Hs k l v r G) as (s & Qs & Ss & L & Pos).
  assert (s = l0) by (apply sorted_same; auto; rewrite <- Qs; exact Q). subst s.
  set (pos := fun i => variant_pos (N.odd v) (length l) (order_pos k (length l) i)) in *.
  split; [exact L|]. split.
  - rewrite <- L. assert (Len : forall i, (i < length r)%nat -> (i < length l)%nat) by lia.
    apply (forall2_positions (row o d n w c) pos r 0). intros i b E. cbn [Nat.add].
    destruct (Pos i) as (x & y & E1 & E2 & E3); [apply Len, nth_error_Some; congruence|]. rewrite E in E2. injection E2 as <-.
    eapply row_same; [|apply R; exact E1|exact E3]. intros p. apply K. apply (Permutation_in _ (Permutation_sym Q)). eapply nth_error_In; eauto.
  - intros i a b. apply (ordering_flags_alternate _ _ wn wz pd lt wkt sf k l v r G).
Qed.

(** C304.  The cost of the rows of a rectangle in the order of a strategy: each row once, and the
    width for every row passed between one and the next. *)
Theorem rows_cost : forall angle w_nonpos w_zero p_default p_lt wkt sort_fn,
  (forall l, std_sorted swath_lt l (sort_fn l)) ->
  forall k (l l0 : list (swath pt R)) v r o d n w c, 0 <= w -> unit_across d n -> Permutation l l0 ->
  StronglySorted (fun a b => (sw_id a < sw_id b)%Z) l0 -> rows o d n w c l0 -> (forall s p, In s l -> In p (sw_path s) -> wkt p = p) ->
  genSortedSwaths w_nonpos w_zero p_default p_lt wkt sort_fn k l v = Ok r ->
  dcost angle r = Ok (INR (length l) * norm d +
    INR (hops (map (fun i => variant_pos (N.odd v) (length l) (order_pos k (length l) i)) (seq 0 (length l)))) * w).
Proof.
  intros angle wn wz pd lt wkt sf Hs k l l0 v r o d n w c Hw U Q S R K G.
  destruct (order_rows wn wz pd lt wkt sf Hs k l l0 v r o d n w c Q S R K G) as (L & F & A).
  rewrite (group_len origin angle p_distance r) by (eapply rows_long; eauto).
  rewrite (len_rows o d n w U Hw c _ _ F A), L. reflexivity.
Qed.
Print Assumptions rows_cost.

(** *** Numbers of rows passed *)
Lemma hops_forward f m : (forall i, f (S i) = S (f i)) -> forall a, hops (map f (seq a (S m))) = m.
Proof.
  intro H. induction m as [|m IH]; intro a; [reflexivity|].
  change (hops (map f (seq a (S (S m))))) with ((f a - f (S a)) + (f (S a) - f a) + hops (map f (seq (S a) (S m))))%nat.
  rewrite IH, H. lia.
Qed.
Lemma hops_from_last n l : (forall i, In i l -> (i < n)%nat) -> hops (map (fun k => (n - 1 - k)%nat) l) = hops l.
Proof.
  induction l as [|a l IH]; intro H; [reflexivity|]. destruct l as [|b l]; [reflexivity|].
  change (hops (map (fun k => (n - 1 - k)%nat) (a :: b :: l))) with
    (((n - 1 - a) - (n - 1 - b)) + ((n - 1 - b) - (n - 1 - a)) + hops (map (fun k => (n - 1 - k)%nat) (b :: l)))%nat.
  rewrite IH by (intros i I; apply H; right; auto). pose proof (H a (or_introl eq_refl)). pose proof (H b (or_intror (or_introl eq_refl))).
  change (hops (a :: b :: l)) with ((a - b) + (b - a) + hops (b :: l))%nat. lia.
Qed.
Lemma hops_variant f n b : (forall i, (i < n)%nat -> (f i < n)%nat) ->
  hops (map (fun i => variant_pos b n (f i)) (seq 0 n)) = hops (map f (seq 0 n)).
Proof.
  intro H. destruct b; [|reflexivity]. rewrite <- (hops_from_last n (map f (seq 0 n))).
  - rewrite map_map. reflexivity.
  - intros i I. apply in_map_iff in I. destruct I as (x & <- & I). apply in_seq in I. apply H. lia.
Qed.
Lemma hops_boustrophedon n b : hops (map (fun i => variant_pos b n (order_pos Boustrophedon n i)) (seq 0 n)) = (n - 1)%nat.
Proof.
  rewrite (hops_variant (order_pos Boustrophedon n)) by auto. destruct n as [|n]; [reflexivity|].
  rewrite (hops_forward (order_pos Boustrophedon (S n))) by reflexivity. lia.
Qed.
Lemma snake_pos_lt n i : (i < n)%nat -> (snake_pos n i < n)%nat.
Proof. unfold snake_pos. destruct (2 * i <? n)%nat eqn:E; [apply Nat.ltb_lt in E|apply Nat.ltb_ge in E]; lia. Qed.
Lemma hops_snake n b : (2 <= n)%nat -> hops (map (fun i => variant_pos b n (order_pos Snake n i)) (seq 0 n)) = (2 * n - 3)%nat.
Proof.
  intro Hn. rewrite (hops_variant (order_pos Snake n)) by (apply snake_pos_lt). cbn [order_pos].
  assert (H : forall m a, (a + S m = n)%nat -> hops (map (snake_pos n) (seq a (S m))) = (2 * m - (if 2 * a <? n then 1 else 0))%nat).
  { induction m as [|m IH]; intros a E; [reflexivity|].
    change (hops (map (snake_pos n) (seq a (S (S m))))) with
      ((snake_pos n a - snake_pos n (S a)) + (snake_pos n (S a) - snake_pos n a) + hops (map (snake_pos n) (seq (S a) (S m))))%nat.
    rewrite IH by lia. unfold snake_pos.
    destruct (2 * a <? n)%nat eqn:E1; destruct (2 * S a <? n)%nat eqn:E2; repeat match goal with K : (_ <? _)%nat = true |- _ => apply Nat.ltb_lt in K | K : (_ <? _)%nat = false |- _ => apply Nat.ltb_ge in K end; lia. }
  replace (seq 0 n) with (seq 0 (S (n - 1))) by (f_equal; lia). rewrite H by lia. replace (2 * 0 <? n)%nat with true by (symmetry; apply Nat.ltb_lt; lia). lia.
Qed.

(** C305.  In boustrophedon order each change of row costs one width; the snake order passes two
    rows at all changes but one. *)
Theorem rows_cost_orders : forall angle w_nonpos w_zero p_default p_lt wkt sort_fn,
  (forall l, std_sorted swath_lt l (sort_fn l)) ->
  forall (l l0 : list (swath pt R)) v o d n w c, 0 <= w -> unit_across d n -> Permutation l l0 ->
  StronglySorted (fun a b => (sw_id a < sw_id b)%Z) l0 -> rows o d n w c l0 -> (forall s p, In s l -> In p (sw_path s) -> wkt p = p) ->
  Forall (fun s => w_nonpos (sw_width s) = false) l ->
  (exists r, genSortedSwaths w_nonpos w_zero p_default p_lt wkt sort_fn Boustrophedon l v = Ok r /\
     dcost angle r = Ok (INR (length l) * norm d + INR (length l - 1) * w)) /\
  ((2 <= length l)%nat -> exists r, genSortedSwaths w_nonpos w_zero p_default p_lt wkt sort_fn Snake l v = Ok r /\
     dcost angle r = Ok (INR (length l) * norm d + INR (2 * length l - 3) * w)).
Proof.
  intros angle wn wz pd lt wkt sf Hs l l0 v o d n w c Hw U Q S R K W. split.
  - destruct (proj2 (ordering_succeeds_iff _ _ wn wz pd lt wkt sf Hs Boustrophedon l v)) as (r & G); [split; [auto|right; exact I]|].
    exists r. split; [exact G|]. rewrite (rows_cost angle wn wz pd lt wkt sf Hs Boustrophedon l l0 v r o d n w c); auto.
    rewrite hops_boustrophedon. reflexivity.
  - intro H2. destruct (proj2 (ordering_succeeds_iff _ _ wn wz pd lt wkt sf Hs Snake l v)) as (r & G); [split; [auto|right; cbn; lia]|].
    exists r. split; [exact G|]. rewrite (rows_cost angle wn wz pd lt wkt sf Hs Snake l l0 v r o d n w c); auto.
    rewrite hops_snake by exact H2. reflexivity.
Qed.
Print Assumptions rows_cost_orders.

(** C306.  No way to drive the rows, in whatever order and directions, costs less than the
    boustrophedon order. *)
Theorem boustrophedon_cheapest : forall angle w_nonpos w_zero p_default p_lt wkt sort_fn,
  (forall l, std_sorted swath_lt l (sort_fn l)) ->
  forall (l l0 : list (swath pt R)) v o d n w c, 0 <= w -> unit_across d n -> Permutation l l0 ->
  StronglySorted (fun a b => (sw_id a < sw_id b)%Z) l0 -> rows o d n w c l0 -> (forall s p, In s l -> In p (sw_path s) -> wkt p = p) ->
  Forall (fun s => w_nonpos (sw_width s) = false) l ->
  exists r x, genSortedSwaths w_nonpos w_zero p_default p_lt wkt sort_fn Boustrophedon l v = Ok r /\ dcost angle r = Ok x /\
    forall l' g, Permutation l l' -> Forall2 (same_swath wkt) l' g -> exists y, dcost angle g = Ok y /\ x <= y.
Proof.
  intros angle wn wz pd lt wkt sf Hs l l0 v o d n w c Hw U Q S R K W.
  destruct (rows_cost_orders angle wn wz pd lt wkt sf Hs l l0 v o d n w c Hw U Q S R K W) as [(r & G & E) _].
  exists r, (INR (length l) * norm d + INR (length l - 1) * w). split; [exact G|]. split; [exact E|].
  intros l' g Q' F. apply rows_forall2 in R.
  assert (R' : Forall2 (fun s j => row o d n w c j s) l0 (seq 0 (length l0))) by (clear - R; induction R; constructor; auto).
  destruct (Permutation_Forall2 (Permutation_trans (Permutation_sym Q) Q' : Permutation l0 l') R') as (js & Qj & Fj).
  assert (Fg : Forall2 (row o d n w c) js g).
  { assert (K' : forall s p, In s l' -> In p (sw_path s) -> wkt p = p) by (intros s p I; apply K; apply (Permutation_in _ (Permutation_sym Q')); auto).
    clear - F Fj K'. revert js Fj. induction F as [|s t l' g Hst F IH]; intros js Fj; inversion Fj; subst; constructor.
    - eapply row_same; [|eassumption|exact Hst]. intros p Ip. apply (K' s p); [left; auto|auto].
    - apply IH; auto. intros s' p I. apply K'. right; auto. }
  exists (len p_distance (flat_map sw_path g)). split; [apply (group_len origin angle p_distance g); eapply rows_long; eauto|].
  assert (N : NoDup js) by (eapply Permutation_NoDup; [exact Qj|apply seq_NoDup]).
  pose proof (len_rows_min o d n w U Hw c js g Fg N) as M.
  replace (length l) with (length g); auto. rewrite <- (Forall2_length F). symmetry. apply Permutation_length. exact Q'.
Qed.
Print Assumptions boustrophedon_cheapest.

(** *** Spirals *)
Lemma hops_app l a b m : hops ((l ++ [a]) ++ b :: m) = (hops (l ++ [a]) + ((a - b) + (b - a)) + hops (b :: m))%nat.
Proof.
  induction l as [|x l IH]; [cbn [app hops]; lia|]. destruct l as [|y l].
  - cbn [app] in *. change (hops (x :: a :: b :: m)) with ((x - a) + (a - x) + hops (a :: b :: m))%nat.
    change (hops [x; a]) with ((x - a) + (a - x) + hops [a])%nat. lia.
  - change (((x :: y :: l) ++ [a]) ++ b :: m) with (x :: ((y :: l) ++ [a]) ++ b :: m).
    change (hops (x :: ((y :: l) ++ [a]) ++ b :: m)) with ((x - y) + (y - x) + hops (((y :: l) ++ [a]) ++ b :: m))%nat.
    change (hops ((x :: y :: l) ++ [a])) with ((x - y) + (y - x) + hops ((y :: l) ++ [a]))%nat. lia.
Qed.

Section Spiral.
  Variable h : nat.
  Hypothesis Hh : (0 < h)%nat.
  (** Position within a block. *)
  Let inner (t : nat) : nat := if Nat.even t then (t / 2)%nat else (2 * h - 1 - t / 2)%nat.
  Lemma inner_step t : (S t < 2 * h)%nat -> ((inner t - inner (S t)) + (inner (S t) - inner t) = 2 * h - 1 - t)%nat.
  Proof.
    intro L. unfold inner. rewrite Nat.even_succ, <- Nat.negb_even. destruct (Nat.even t) eqn:E; cbn [negb].
    - apply Nat.even_spec in E. destruct E as [q ->]. replace (S (2 * q) / 2)%nat with q by (apply (Nat.div_unique _ 2 q 1); lia).
      replace (2 * q / 2)%nat with q by (apply (Nat.div_unique _ 2 q 0); lia). lia.
    - assert (O : Nat.odd t = true) by (rewrite <- Nat.negb_even, E; reflexivity). apply Nat.odd_spec in O. destruct O as [q ->].
      replace ((2 * q + 1) / 2)%nat with q by (apply (Nat.div_unique _ 2 q 1); lia).
      replace (S (2 * q + 1) / 2)%nat with (q + 1)%nat by (apply (Nat.div_unique _ 2 (q + 1) 0); lia). lia.
  Qed.
  Lemma inner_lt t : (t < 2 * h)%nat -> (inner t < 2 * h)%nat.
  Proof. intro L. unfold inner. pose proof (Nat.div_le_upper_bound t 2 t ltac:(lia) ltac:(lia)). destruct (Nat.even t); lia. Qed.
  Lemma hops_inner r : forall t, (t + S r = 2 * h)%nat -> (2 * hops (map inner (seq t (S r))) = (r + 1) * r)%nat.
  Proof.
    induction r as [|r IH]; intros t E; [reflexivity|].
    change (hops (map inner (seq t (S (S r))))) with ((inner t - inner (S t)) + (inner (S t) - inner t) + hops (map inner (seq (S t) (S r))))%nat.
    rewrite inner_step by lia. rewrite Nat.mul_add_distr_l, IH by lia. replace (2 * h - 1 - t)%nat with (S r) by lia. ring.
  Qed.
  Lemma hops_shift o (f : nat -> nat) l : hops (map (fun t => (o + f t)%nat) l) = hops (map f l).
  Proof.
    induction l as [|a l IH]; [reflexivity|]. destruct l as [|b l]; [reflexivity|].
    change (hops (map (fun t => (o + f t)%nat) (a :: b :: l))) with (((o + f a) - (o + f b)) + ((o + f b) - (o + f a)) + hops (map (fun t => (o + f t)%nat) (b :: l)))%nat.
    rewrite IH. change (hops (map f (a :: b :: l))) with ((f a - f b) + (f b - f a) + hops (map f (b :: l)))%nat. lia.
  Qed.
  (** The positions of a block. *)
  Lemma spiral_block m q : (q < m)%nat ->
    map (spiral_pos (2 * h) (m * (2 * h))) (seq (q * (2 * h)) (2 * h)) = map (fun t => (q * (2 * h) + inner t)%nat) (seq 0 (2 * h)).
  Proof.
    intro L. rewrite <- (Nat.add_0_r (q * (2 * h))) at 1.
    assert (S : forall a b k, seq (a + b) k = map (fun t => (a + t)%nat) (seq b k)).
    { intros a b k. revert b. induction k as [|k IH]; intro b; cbn [seq map]; [reflexivity|]. f_equal. rewrite <- IH. f_equal. lia. }
    rewrite S, map_map. apply map_ext_in. intros t I. apply in_seq in I. unfold spiral_pos.
    replace ((q * (2 * h) + t) / (2 * h))%nat with q by (apply (Nat.div_unique _ (2 * h) q t); lia).
    replace ((q * (2 * h) + t) mod (2 * h))%nat with t by (apply (Nat.mod_unique _ (2 * h) q t); lia).
    replace (Nat.min (2 * h) (m * (2 * h) - q * (2 * h))) with (2 * h)%nat by nia.
    replace (Nat.even (q * (2 * h) + t)) with (Nat.even t); [reflexivity|].
    rewrite Nat.even_add. replace (Nat.even (q * (2 * h))) with true; [destruct (Nat.even t); reflexivity|].
    symmetry. apply Nat.even_spec. exists (q * h)%nat. lia.
  Qed.
  Lemma inner_ends : inner 0 = 0%nat /\ inner (2 * h - 1) = h.
  Proof.
    split; [reflexivity|]. unfold inner. replace (2 * h - 1)%nat with (2 * (h - 1) + 1)%nat by lia.
    assert (E : Nat.even (2 * (h - 1) + 1) = false) by (rewrite <- Nat.negb_odd; apply negb_false_iff, Nat.odd_spec; exists (h - 1)%nat; lia). rewrite E.
    replace ((2 * (h - 1) + 1) / 2)%nat with (h - 1)%nat by (apply (Nat.div_unique _ 2 (h - 1) 1); lia). lia.
  Qed.
  Lemma hops_blocks m : forall k q, (q + S k = m)%nat ->
    hops (map (spiral_pos (2 * h) (m * (2 * h))) (seq (q * (2 * h)) (S k * (2 * h)))) = (h * (S k * (2 * h) - 1))%nat.
  Proof.
    assert (B : forall q, (q < m)%nat -> hops (map (spiral_pos (2 * h) (m * (2 * h))) (seq (q * (2 * h)) (2 * h))) = (h * (2 * h - 1))%nat).
    { intros q L. rewrite spiral_block by exact L. rewrite hops_shift. pose proof (hops_inner (2 * h - 1) 0 ltac:(lia)) as E.
      replace (S (2 * h - 1)) with (2 * h)%nat in E by lia. nia. }
    induction k as [|k IH]; intros q E; [rewrite Nat.mul_1_l; apply B; lia|].
    replace (S (S k) * (2 * h))%nat with (2 * h + S k * (2 * h))%nat by lia. rewrite seq_app, map_app.
    replace (q * (2 * h) + 2 * h)%nat with (S q * (2 * h))%nat by lia. specialize (IH (S q) ltac:(lia)).
    pose proof (B q ltac:(lia)) as Bq.
    assert (E1 : exists l, map (spiral_pos (2 * h) (m * (2 * h))) (seq (q * (2 * h)) (2 * h)) = l ++ [(q * (2 * h) + h)%nat]).
    { rewrite spiral_block by lia. replace (seq 0 (2 * h)) with (seq 0 (2 * h - 1) ++ [(2 * h - 1)%nat]).
      - rewrite map_app. cbn [map]. rewrite (proj2 inner_ends). eauto.
      - rewrite <- seq_S. f_equal. lia. }
    assert (E2 : exists l, map (spiral_pos (2 * h) (m * (2 * h))) (seq (S q * (2 * h)) (S k * (2 * h))) = (S q * (2 * h))%nat :: l).
    { replace (S k * (2 * h))%nat with (2 * h + k * (2 * h))%nat by lia. rewrite seq_app, map_app, spiral_block by lia.
      assert (Sq : seq 0 (2 * h) = 0%nat :: seq 1 (2 * h - 1)) by (replace (2 * h)%nat with (S (2 * h - 1)) at 1 by lia; reflexivity).
      rewrite Sq. cbn [map app]. rewrite (proj1 inner_ends), Nat.add_0_r. eauto. }
    destruct E1 as [l1 E1], E2 as [l2 E2]. rewrite E1, E2 in *. rewrite hops_app, Bq, IH. nia.
  Qed.
End Spiral.

(** C307.  Spirals of [2 h] rows pass [h] rows per change on average, if they fill the rectangle. *)
Theorem rows_cost_spiral : forall angle w_nonpos w_zero p_default p_lt wkt sort_fn,
  (forall l, std_sorted swath_lt l (sort_fn l)) ->
  forall (l l0 : list (swath pt R)) v o d n w c h m, 0 <= w -> unit_across d n -> Permutation l l0 ->
  StronglySorted (fun a b => (sw_id a < sw_id b)%Z) l0 -> rows o d n w c l0 -> (forall s p, In s l -> In p (sw_path s) -> wkt p = p) ->
  Forall (fun s => w_nonpos (sw_width s) = false) l -> (0 < h)%nat -> (0 < m)%nat -> length l = (m * (2 * h))%nat ->
  exists r, genSortedSwaths w_nonpos w_zero p_default p_lt wkt sort_fn (Spiral (2 * h)) l v = Ok r /\
    dcost angle r = Ok (INR (length l) * norm d + INR (h * (length l - 1)) * w).
Proof.
  intros angle wn wz pd lt wkt sf Hs l l0 v o d n w c h m Hw U Q S R K W Hh Hm L.
  destruct (proj2 (ordering_succeeds_iff _ _ wn wz pd lt wkt sf Hs (Spiral (2 * h)) l v)) as (r & G); [split; [auto|right; cbn; lia]|].
  exists r. split; [exact G|]. rewrite (rows_cost angle wn wz pd lt wkt sf Hs (Spiral (2 * h)) l l0 v r o d n w c); auto.
  rewrite (hops_variant (order_pos (Spiral (2 * h)) (length l))).
  - rewrite L. change (order_pos (Spiral (2 * h)) (m * (2 * h))) with (spiral_pos (2 * h) (m * (2 * h))). pose proof (hops_blocks h Hh m (m - 1) 0 ltac:(lia)) as E. replace (Datatypes.S (m - 1)) with m in E by lia.
    rewrite Nat.mul_0_l in E. rewrite E. reflexivity.
  - cbn [order_pos]. intros i Hi. unfold spiral_pos.
    assert (D : (i = (2 * h) * (i / (2 * h)) + i mod (2 * h))%nat) by (apply Nat.div_mod; lia).
    assert (T : (i mod (2 * h) < 2 * h)%nat) by (apply Nat.mod_upper_bound; lia).
    pose proof (Nat.div_le_upper_bound (i mod (2 * h)) 2 (i mod (2 * h)) ltac:(lia) ltac:(lia)).
    set (q := (i / (2 * h))%nat) in *. set (t := (i mod (2 * h))%nat) in *. destruct (Nat.even (q * (2 * h) + t)); nia.
Qed.
Print Assumptions rows_cost_spiral.

(** The rows of a rectangle 10 long and as wide as there are rows. *)
Definition ex_row (j : nat) : swath pt R :=
  mkSwath pt R (Z.of_nat j) [mkPoint (N := RNum) 0 (INR j) 0; mkPoint (N := RNum) 10 (INR j) 0] 1 true MAINLAND.
Lemma ex_rows m : let l := map ex_row (seq 0 m) in
  unit_across (mkPoint (N := RNum) 10 0 0) (mkPoint (N := RNum) 0 1 0) /\ StronglySorted (fun a b => (sw_id a < sw_id b)%Z) l /\
  rows origin (mkPoint (N := RNum) 10 0 0) (mkPoint (N := RNum) 0 1 0) 1 true l.
Proof.
  split; [split; cbn; ring|]. split.
  - generalize 0%nat. induction m as [|m IH]; intro a; cbn [seq map]; constructor; [apply IH|].
    apply Forall_forall. intros s I. apply in_map_iff in I. destruct I as (x & <- & I). apply in_seq in I. cbn. lia.
  - intros j s E. rewrite nth_error_map in E. destruct (nth_error (seq 0 m) j) as [x|] eqn:X; [|discriminate]. injection E as <-.
    assert (x = j).
    { apply (nth_error_nth _ _ 0%nat) in X as X'. rewrite seq_nth in X'; [auto|]. rewrite <- (seq_length m 0). apply nth_error_Some. congruence. }
    subst x. eexists _, _. cbn [px py ex_row sw_path sw_dir]. split; [|split; [|split; [|split; [|left; split; reflexivity]]]]; cbn; ring.
Qed.
Example rows_cost_ex : exists l0 : list (swath pt R), length l0 = 3%nat /\
  exists o d n, unit_across d n /\ StronglySorted (fun a b => (sw_id a < sw_id b)%Z) l0 /\ rows o d n 1 true l0.
Proof. exists (map ex_row (seq 0 3)). split; [reflexivity|]. do 3 eexists. apply ex_rows. Qed.
Example rows_cost_orders_ex : exists l0 : list (swath pt R), (2 <= length l0)%nat /\
  exists o d n, unit_across d n /\ StronglySorted (fun a b => (sw_id a < sw_id b)%Z) l0 /\ rows o d n 1 true l0.
Proof. exists (map ex_row (seq 0 5)). split; [cbn; lia|]. do 3 eexists. apply ex_rows. Qed.
Example boustrophedon_cheapest_ex : forall m, exists l0 : list (swath pt R), length l0 = m /\
  exists o d n, unit_across d n /\ StronglySorted (fun a b => (sw_id a < sw_id b)%Z) l0 /\ rows o d n 1 true l0.
Proof. intro m. exists (map ex_row (seq 0 m)). split; [rewrite map_length, seq_length; reflexivity|]. do 3 eexists. apply ex_rows. Qed.
Example rows_cost_spiral_ex : exists l0 : list (swath pt R), length l0 = (2 * (2 * 2))%nat /\
  exists o d n, unit_across d n /\ StronglySorted (fun a b => (sw_id a < sw_id b)%Z) l0 /\ rows o d n 1 true l0.
Proof. exists (map ex_row (seq 0 8)). split; [reflexivity|]. do 3 eexists. apply ex_rows. Qed.
