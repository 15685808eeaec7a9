(** The cost of turns between rows (property C309). *)
From Coq Require Import List Arith ZArith Lia Bool Reals Lra Psatz Permutation Sorted.
From Verif Require Import Outcome ListAux Num Point_Model Angle_Model Angle_Spec Swath_Model Swath_Spec Swath_Proofs Swath_Proofs2 Swath_Props.
From Verif Require Import Objective_Model Objective_Spec Objective_Proofs Drive_Spec Drive_Props.
Import ListNotations.
Open Scope R_scope.

Section Turns.
  Variables (angle : pt -> pt -> R) (cost4 : pt -> R -> pt -> R -> R) (t : nat -> R).
  Variables (o d n : pt) (w : R) (c : bool).
  Hypothesis U : unit_across d n.
  Notation tcost := (rp_cost_swaths (W := R) RNum origin angle p_distance cost4).
  Hypothesis T : forall j k s s', row o d n w c j s -> row o d n w c k s' -> sw_dir s' = negb (sw_dir s) ->
    rp_cost_swath_swath RNum origin angle cost4 s s' = Ok (t ((j - k) + (k - j))%nat).

  Lemma jumps_turns js g : Forall2 (row o d n w c) js g -> forall j s (acc : R), row o d n w c j s -> alternates sw_dir (s :: g) ->
    rp_jumps (W := R) RNum origin angle cost4 acc s g = Ok (acc + hop_cost t (j :: js)).
  Proof.
    induction 1 as [|k s' js g R F IH]; intros j s acc Rs A; cbn [rp_jumps].
    - f_equal. cbn. ring.
    - rewrite (T j k s s' Rs R (A 0%nat s s' eq_refl eq_refl)). cbn [bind]. rewrite (IH k s' _ R); [|intros i a b H1 H2; apply (A (S i) a b H1 H2)].
      f_equal. change (hop_cost t (j :: k :: js)) with (t ((j - k) + (k - j))%nat + hop_cost t (k :: js)). simpl nadd. ring.
  Qed.
  Lemma lens_rows js g : Forall2 (row o d n w c) js g -> forall acc : R,
    fold_left (fun acc s => nadd RNum acc (rp_cost_swath RNum p_distance s)) g acc = acc + INR (length g) * norm d.
  Proof.
    induction 1 as [|k s js g R F IH]; intro acc; cbn [fold_left length]; [simpl; ring|]. rewrite IH, S_INR.
    destruct (row_height o d n w U c k s R) as (x & y & E & _ & _ & L). unfold rp_cost_swath. rewrite E. simpl. rewrite L. ring.
  Qed.
  Lemma cost_turns js g : Forall2 (row o d n w c) js g -> alternates sw_dir g ->
    tcost g = Ok (INR (length g) * norm d + hop_cost t js).
  Proof.
    intros F A. unfold rp_cost_swaths. rewrite (lens_rows js g F). destruct F as [|j s js g R F].
    - f_equal. simpl. ring.
    - rewrite (jumps_turns js g F j s _ R A). f_equal. simpl nofZ. ring.
  Qed.
End Turns.

Lemma hop_variant t f n b : (forall i, (i < n)%nat -> (f i < n)%nat) ->
  hop_cost t (map (fun i => variant_pos b n (f i)) (seq 0 n)) = hop_cost t (map f (seq 0 n)).
Proof.
  intro H. destruct b; [|reflexivity]. assert (I : forall i, In i (map f (seq 0 n)) -> (i < n)%nat).
  { intros i I. apply in_map_iff in I. destruct I as (x & <- & I). apply in_seq in I. apply H. lia. }
  unfold variant_pos. rewrite <- (map_map f (fun k => (n - 1 - k)%nat)). induction (map f (seq 0 n)) as [|a l IH]; [reflexivity|]. destruct l as [|b l]; [reflexivity|].
  specialize (IH (fun i K => I i (or_intror K))). pose proof (I a (or_introl eq_refl)). pose proof (I b (or_intror (or_introl eq_refl))).
  change (hop_cost t (map (fun k => (n - 1 - k)%nat) (a :: b :: l))) with
    (t (((n - 1 - a) - (n - 1 - b)) + ((n - 1 - b) - (n - 1 - a)))%nat + hop_cost t (map (fun k => (n - 1 - k)%nat) (b :: l))).
  rewrite IH. change (hop_cost t (a :: b :: l)) with (t ((a - b) + (b - a))%nat + hop_cost t (b :: l)). f_equal. f_equal. lia.
Qed.
Lemma hop_boustrophedon t n b : hop_cost t (map (fun i => variant_pos b n (order_pos Boustrophedon n i)) (seq 0 n)) = INR (n - 1) * t 1%nat.
Proof.
  rewrite (hop_variant t (order_pos Boustrophedon n)) by auto. destruct n as [|n]; [cbn; ring|]. replace (S n - 1)%nat with n by lia.
  change (order_pos Boustrophedon (S n)) with (fun i : nat => i). rewrite map_id.
  assert (H : forall m a, hop_cost t (seq a (S m)) = INR m * t 1%nat); [|apply H].
  induction m as [|m IH]; intro a; [cbn; ring|].
  change (hop_cost t (seq a (S (S m)))) with (t ((a - S a) + (S a - a))%nat + hop_cost t (seq (S a) (S m))).
  rewrite IH, S_INR. replace ((a - S a) + (S a - a))%nat with 1%nat by lia. ring.
Qed.
Lemma hop_snake t n b : (2 <= n)%nat -> hop_cost t (map (fun i => variant_pos b n (order_pos Snake n i)) (seq 0 n)) = INR (n - 2) * t 2%nat + t 1%nat.
Proof.
  intro Hn. rewrite (hop_variant t (order_pos Snake n)) by (apply snake_pos_lt).
  change (order_pos Snake n) with (snake_pos n).
  assert (H : forall m a, (a + S m = n)%nat -> hop_cost t (map (snake_pos n) (seq a (S m))) =
    if (2 * a <? n)%nat then INR (m - 1) * t 2%nat + t 1%nat else INR m * t 2%nat).
  { induction m as [|m IH]; intros a E.
    - replace (2 * a <? n)%nat with false by (symmetry; apply Nat.ltb_ge; lia). cbn. ring.
    - change (hop_cost t (map (snake_pos n) (seq a (S (S m))))) with
        (t ((snake_pos n a - snake_pos n (S a)) + (snake_pos n (S a) - snake_pos n a))%nat + hop_cost t (map (snake_pos n) (seq (S a) (S m)))).
      rewrite IH by lia. replace (S m - 1)%nat with m by lia.
      destruct (2 * a <? n)%nat eqn:E1; destruct (2 * S a <? n)%nat eqn:E2;
        repeat match goal with K : (_ <? _)%nat = true |- _ => apply Nat.ltb_lt in K | K : (_ <? _)%nat = false |- _ => apply Nat.ltb_ge in K end; try lia.
      + replace ((snake_pos n a - snake_pos n (S a)) + (snake_pos n (S a) - snake_pos n a))%nat with 2%nat.
        * assert (M : (1 <= m)%nat) by lia. replace (INR m) with (INR (m - 1) + 1) by (rewrite <- S_INR; f_equal; lia). ring.
        * unfold snake_pos. replace (2 * a <? n)%nat with true by (symmetry; apply Nat.ltb_lt; lia). replace (2 * S a <? n)%nat with true by (symmetry; apply Nat.ltb_lt; lia). lia.
      + replace ((snake_pos n a - snake_pos n (S a)) + (snake_pos n (S a) - snake_pos n a))%nat with 1%nat; [ring|].
        unfold snake_pos. replace (2 * a <? n)%nat with true by (symmetry; apply Nat.ltb_lt; lia). replace (2 * S a <? n)%nat with false by (symmetry; apply Nat.ltb_ge; lia). lia.
      + replace ((snake_pos n a - snake_pos n (S a)) + (snake_pos n (S a) - snake_pos n a))%nat with 2%nat; [rewrite S_INR; ring|].
        unfold snake_pos. replace (2 * a <? n)%nat with false by (symmetry; apply Nat.ltb_ge; lia). replace (2 * S a <? n)%nat with false by (symmetry; apply Nat.ltb_ge; lia). lia. }
  replace (seq 0 n) with (seq 0 (S (n - 1))) by (f_equal; lia). rewrite H by lia. replace (2 * 0 <? n)%nat with true by (symmetry; apply Nat.ltb_lt; lia).
  replace (n - 1 - 1)%nat with (n - 2)%nat by lia. reflexivity.
Qed.

(** C309.  If the price [t k] of a turn depends only on the number [k] of rows passed, the
    boustrophedon order pays [t 1] for every turn and the snake order [t 2] for all turns but one;
    so with three rows or more the snake order is the cheaper one exactly if [t 2 < t 1]. *)
Theorem rows_cost_turns : forall angle cost4 (t : nat -> R) w_nonpos w_zero p_default p_lt wkt sort_fn,
  (forall l, std_sorted swath_lt l (sort_fn l)) ->
  forall (l l0 : list (swath pt R)) v v' o d n w c, unit_across d n -> Permutation l l0 ->
  StronglySorted (fun a b => (sw_id a < sw_id b)%Z) l0 -> rows o d n w c l0 -> (forall s p, In s l -> In p (sw_path s) -> wkt p = p) ->
  Forall (fun s => w_nonpos (sw_width s) = false) l ->
  (forall j k s s', row o d n w c j s -> row o d n w c k s' -> sw_dir s' = negb (sw_dir s) ->
    rp_cost_swath_swath RNum origin angle cost4 s s' = Ok (t ((j - k) + (k - j))%nat)) ->
  exists r x, genSortedSwaths w_nonpos w_zero p_default p_lt wkt sort_fn Boustrophedon l v = Ok r /\
    rp_cost_swaths RNum origin angle p_distance cost4 r = Ok x /\ x = INR (length l) * norm d + INR (length l - 1) * t 1%nat /\
    ((2 <= length l)%nat -> exists r' x', genSortedSwaths w_nonpos w_zero p_default p_lt wkt sort_fn Snake l v' = Ok r' /\
       rp_cost_swaths RNum origin angle p_distance cost4 r' = Ok x' /\ x' = INR (length l) * norm d + INR (length l - 2) * t 2%nat + t 1%nat /\
       ((3 <= length l)%nat -> (x' < x <-> t 2%nat < t 1%nat))).
Proof.
  intros angle cost4 t wn wz pd lt wkt sf Hs l l0 v v' o d n w c U Q S R K W T.
  assert (Gen : forall k v r, genSortedSwaths wn wz pd lt wkt sf k l v = Ok r -> rp_cost_swaths RNum origin angle p_distance cost4 r =
    Ok (INR (length l) * norm d + hop_cost t (map (fun i => variant_pos (N.odd v) (length l) (order_pos k (length l) i)) (seq 0 (length l))))).
  { intros k v0 r G. destruct (order_rows wn wz pd lt wkt sf Hs k l l0 v0 r o d n w c Q S R K G) as (L & F & A).
    rewrite (cost_turns angle cost4 t o d n w c U T _ _ F A), L. reflexivity. }
  destruct (proj2 (ordering_succeeds_iff _ _ wn wz pd lt wkt sf Hs Boustrophedon l v)) as (r & G); [split; [auto|right; exact I]|].
  exists r, (INR (length l) * norm d + INR (length l - 1) * t 1%nat). split; [exact G|]. split; [|split; [reflexivity|]].
  { rewrite (Gen _ _ _ G), hop_boustrophedon. reflexivity. }
  intro H2. destruct (proj2 (ordering_succeeds_iff _ _ wn wz pd lt wkt sf Hs Snake l v')) as (r' & G'); [split; [auto|right; cbn; lia]|].
  exists r', (INR (length l) * norm d + INR (length l - 2) * t 2%nat + t 1%nat). split; [exact G'|]. split; [|split; [reflexivity|]].
  { rewrite (Gen _ _ _ G'), hop_snake by exact H2. apply (f_equal Ok). refine (_ : @eq RbaseSymbolsImpl.R _ _). ring. }
  intro H3. assert (M : INR (length l - 1) = INR (length l - 2) + 1) by (rewrite <- S_INR; f_equal; lia). rewrite M.
  assert (P : 0 < INR (length l - 2)) by (apply lt_0_INR; lia). split; nra.
Qed.
Print Assumptions rows_cost_turns.

(** Prices of turns that depend on the distance are of this kind; here the snake order is cheaper. *)
Lemma distance_price (f : R -> R) angle o d n w c j k s s' : 0 <= w -> unit_across d n -> row o d n w c j s -> row o d n w c k s' -> sw_dir s' = negb (sw_dir s) ->
  rp_cost_swath_swath RNum origin angle (fun p _ q _ => f (p_distance p q)) s s' = Ok (f (INR ((j - k) + (k - j)) * w)).
Proof.
  intros Hw U R R' D. destruct (row_jump o d n w U Hw c j k s s' R R' D) as (x & y & x' & y' & E & E' & J).
  unfold rp_cost_swath_swath, sw_getOutAngle, sw_getInAngle, swath_endPoint, swath_startPoint. rewrite E, E'. cbn [rev app bind]. rewrite J. reflexivity.
Qed.
Example rows_cost_turns_ex : exists (l0 : list (swath pt R)) o d n (t : nat -> R), length l0 = 3%nat /\ t 2%nat < t 1%nat /\
  unit_across d n /\ StronglySorted (fun a b => (sw_id a < sw_id b)%Z) l0 /\ rows o d n 1 true l0 /\
  forall j k s s', row o d n 1 true j s -> row o d n 1 true k s' -> sw_dir s' = negb (sw_dir s) ->
    rp_cost_swath_swath RNum origin (fun _ _ => 0) (fun p _ q _ => 9 - p_distance p q) s s' = Ok (t ((j - k) + (k - j))%nat).
Proof.
  destruct (ex_rows 3) as (U & S & R). exists (map ex_row (seq 0 3)). do 3 eexists. exists (fun k => 9 - INR k * 1).
  split; [reflexivity|]. split; [simpl; lra|]. split; [exact U|]. split; [exact S|]. split; [exact R|].
  intros. eapply (distance_price (fun x => 9 - x)); eauto. lra.
Qed.
