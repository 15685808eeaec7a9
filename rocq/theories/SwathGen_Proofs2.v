(** Proofs about brute force and headlands. *)
From Coq Require Import List Arith ZArith Lia Bool Reals Lra Psatz Permutation.
From Verif Require Import Outcome ListAux Num Point_Model Angle_Model Angle_Proofs Angle_Proofs2.
From Verif Require Import SwathGen_Model.
Import ListNotations.
Open Scope R_scope.

(** std::min_element returns the first of the smallest. *)
Lemma min_from_first l : forall best ib i, (ib < i)%nat ->
  let m := min_from best ib i l in
  (m = ib /\ (forall k x, nth_error l k = Some x -> best <= x)) \/
  (exists k x, m = (i + k)%nat /\ nth_error l k = Some x /\ x < best /\
     forall j y, (j < k)%nat -> nth_error l j = Some y -> x < y).
Proof.
  induction l as [|y l IH]; intros best ib i Hi; simpl.
  - left. split; auto. intros [|k] x H; discriminate.
  - destruct (Rlt_dec y best) as [H|H].
    + right. destruct (IH y i (S i)) as [[-> G]|(k & x & -> & Hk & L & G)]; [lia| |].
      * exists 0%nat, y. split; [lia|]. split; auto. split; auto. intros; lia.
      * exists (S k), x. split; [lia|]. split; auto. split; [lra|].
        intros [|j] z Hj Hz; [injection Hz as <-; auto|]. apply (G j); [lia|auto].
    + destruct (IH best ib (S i)) as [[-> G]|(k & x & -> & Hk & L & G)]; [lia| |].
      * left. split; auto. intros [|k] x Hx; [injection Hx as <-; lra|]. eauto.
      * right. exists (S k), x. split; [lia|]. split; auto. split; [lra|].
        intros [|j] z Hj Hz; [injection Hz as <-; lra|]. apply (G j); [lia|auto].
Qed.

Lemma min_index_first l : l <> [] -> exists x, nth_error l (min_index l) = Some x /\
  (forall y, In y l -> x <= y) /\ forall j y, (j < min_index l)%nat -> nth_error l j = Some y -> x < y.
Proof.
  intro H. destruct (min_index_ok l H) as (x & Hx & L). exists x. split; auto. split; auto.
  destruct l as [|a l]; [congruence|]. simpl in *.
  destruct (min_from_first l a 0 1) as [[-> G]|(k & z & E & Hk & Lz & G)]; [lia|intros; lia|].
  rewrite E in Hx |- *. simpl in Hx. rewrite Hk in Hx. injection Hx as <-.
  intros [|j] y Hj Hy; [injection Hy as <-; auto|]. apply (G j); [lia|auto].
Qed.

Lemma vec_set_ok {A} (l : list A) i a : (i < length l)%nat -> exists l', vec_set l i a = Ok l' /\ length l' = length l /\
  forall j, nth_error l' j = if Nat.eqb j i then Some a else nth_error l j.
Proof.
  intro H. unfold vec_set. destruct (nth_error l i) eqn:E; [|apply nth_error_None in E; lia].
  exists (firstn i l ++ a :: skipn (S i) l). split; [reflexivity|]. revert l E H. induction i as [|i IH]; intros [|b l] E H; try (simpl in H; lia).
  - split; [reflexivity|]. intros [|j]; reflexivity.
  - simpl in E, H. destruct (IH l E ltac:(lia)) as [IH1 IH2]. split; [simpl in *; lia|]. intros [|j]; [reflexivity|apply IH2].
Qed.

Section Costs.
  Variables (cost : R -> outcome R) (c : R -> R) (step : R).

  Lemma bf_fold l : forall cs, (forall i, In i l -> (i < length cs)%nat) ->
    (forall i, In i l -> cost (INR i * step) = Ok (c (INR i * step))) ->
    exists cs', foldM (fun cs i => do v <- cost (INR i * step); vec_set cs i v) l cs = Ok cs' /\
      length cs' = length cs /\ forall j, (j < length cs)%nat ->
        (In j l -> nth_error cs' j = Some (c (INR j * step))) /\ (~ In j l -> nth_error cs' j = nth_error cs j).
  Proof.
    induction l as [|i l IH]; intros cs Hl Hc; cbn [foldM].
    - exists cs. split; auto. split; auto. intros. split; [intros []|auto].
    - rewrite Hc by (left; auto). cbn [bind].
      destruct (vec_set_ok cs i (c (INR i * step))) as (cs1 & -> & L1 & N1); [apply Hl; left; auto|]. cbn [bind].
      destruct (IH cs1) as (cs' & -> & L & N).
      + intros k Hk. rewrite L1. apply Hl. right. auto.
      + intros k Hk. apply Hc. right. auto.
      + exists cs'. split; auto. split; [lia|]. intros j Hj. destruct (N j) as [N2 N3]; [lia|].
        split.
        * intro HI. destruct (in_dec Nat.eq_dec j l) as [D|D]; auto. destruct HI as [->|HI]; [|tauto].
          rewrite N3, N1, Nat.eqb_refl; auto.
        * intro HI. rewrite N3, N1 by (intro; apply HI; right; auto).
          replace (Nat.eqb j i) with false; auto. symmetry. apply Nat.eqb_neq. intros ->. apply HI. left. auto.
  Qed.

  Lemma bf_costs_ok n l : Permutation l (seq 0 n) ->
    (forall i, (i < n)%nat -> cost (INR i * step) = Ok (c (INR i * step))) ->
    bf_costs cost step n l = Ok (map (fun i => c (INR i * step)) (seq 0 n)).
  Proof.
    intros HP Hc. unfold bf_costs.
    assert (HI : forall i, In i l <-> (i < n)%nat).
    { intro i. split; intro H; [apply (Permutation_in _ HP), in_seq in H; lia|].
      apply (Permutation_in _ (Permutation_sym HP)), in_seq. lia. }
    destruct (bf_fold l (repeat 0 n)) as (cs & -> & L & N).
    - intros i H. rewrite repeat_length. apply HI. auto.
    - intros i H. apply Hc. apply HI. auto.
    - f_equal. rewrite repeat_length in *.
      apply nth_ext with (d := 0) (d' := 0); [rewrite map_length, seq_length; auto|].
      intros j Hj. rewrite L in Hj. destruct (N j Hj) as [N1 _]. specialize (N1 (proj2 (HI j) Hj)).
      apply nth_error_nth with (d := 0) in N1. rewrite N1.
      symmetry. apply nth_error_nth. rewrite nth_error_map, (nth_error_nth' _ 0%nat) by (rewrite seq_length; auto).
      rewrite seq_nth by auto. reflexivity.
  Qed.
End Costs.

(** Truncation. *)
Lemma trunc_spec x : 0 <= x -> (0 <= Rtrunc x)%Z /\ IZR (Rtrunc x) <= x < IZR (Rtrunc x) + 1.
Proof.
  intro H. unfold Rtrunc. destruct (Rle_dec 0 x); [|lra].
  destruct (base_Int_part x) as [H1 H2]. split; [|lra].
  assert (-1 < Int_part x)%Z; [apply lt_IZR; lra|lia].
Qed.

Lemma trunc_neg x : x < 0 -> Rtrunc x = (- Rtrunc (- x))%Z.
Proof. intro H. unfold Rtrunc. destruct (Rle_dec 0 x); [lra|]. destruct (Rle_dec 0 (- x)); [auto|lra]. Qed.

(** Number of angles. *)
Definition bf_n (step : R) : nat := Z.to_nat (Rtrunc (2 * PI / step)).

Lemma bf_count_ok step : 0 < step -> 2 * PI / step < 2147483648 ->
  bf_count step = Ok (Rtrunc (2 * PI / step)) /\ (0 <= Rtrunc (2 * PI / step))%Z /\ INR (bf_n step) * step <= 2 * PI < (INR (bf_n step) + 1) * step.
Proof.
  intros H1 H2. pose proof PI_RGT_0.
  assert (Hp : 0 <= 2 * PI / step) by (apply Rmult_le_pos; [lra|left; apply Rinv_0_lt_compat; auto]).
  destruct (trunc_spec _ Hp) as [A B].
  split; [|split; auto].
  - unfold bf_count. destruct (Req_EM_T step 0); [lra|]. unfold to_int.
    replace (_ && _)%bool with true; auto. symmetry. apply andb_true_iff. split; apply Z.leb_le; [lia|].
    assert (Rtrunc (2 * PI / step) < 2147483648)%Z; [apply lt_IZR; lra|lia].
  - unfold bf_n. rewrite !INR_IZR_INZ, Z2Nat.id by auto.
    assert (E : 2 * PI = 2 * PI / step * step) by (field; lra).
    destruct B as [B1 B2].
    apply (Rmult_le_compat_r step) in B1; [|lra]. apply (Rmult_lt_compat_r step) in B2; [|lra]. lra.
Qed.

Lemma best_angle_core cost c step sched : 0 < step <= 2 * PI -> 2 * PI / step < 2147483648 ->
  (forall n, Permutation (sched n) (seq 0 n)) ->
  (forall i, (i < bf_n step)%nat -> cost (INR i * step) = Ok (c (INR i * step))) ->
  exists k, (k < bf_n step)%nat /\ bf_computeBestAngle cost step sched = Ok (INR k * step) /\
    (forall j, (j < bf_n step)%nat -> c (INR k * step) <= c (INR j * step)) /\
    (forall j, (j < k)%nat -> c (INR k * step) < c (INR j * step)).
Proof.
  intros Hs Hr HP Hc. destruct (bf_count_ok step) as (E & Hz & HN); [lra|auto|].
  assert (Hn : (0 < bf_n step)%nat).
  { apply Nat.neq_0_lt_0. intro E0. rewrite E0 in HN. simpl in HN. lra. }
  set (n := bf_n step) in *. set (f := fun i => c (INR i * step)).
  assert (Hne : map f (seq 0 n) <> []) by (destruct n; [lia|discriminate]).
  destruct (min_index_first _ Hne) as (x & Hx & L & F).
  set (k := min_index (map f (seq 0 n))) in *.
  assert (Hget : forall j, (j < n)%nat -> nth_error (map f (seq 0 n)) j = Some (f j)).
  { intros j Hj. rewrite nth_error_map, (nth_error_nth' _ 0%nat) by (rewrite seq_length; auto). rewrite seq_nth by auto. auto. }
  assert (Hk : (k < n)%nat).
  { assert (k < length (map f (seq 0 n)))%nat by (apply nth_error_Some; congruence). rewrite map_length, seq_length in *. auto. }
  rewrite (Hget k Hk) in Hx. injection Hx as <-.
  exists k. split; auto. split; [|split].
  - unfold bf_computeBestAngle. rewrite E. cbn [bind]. destruct (Z.ltb_spec (Rtrunc (2 * PI / step)) 0); [lia|].
    fold (bf_n step). fold n. rewrite (bf_costs_ok cost c step n (sched n)) by auto. cbn [bind].
    fold f. fold k. unfold vec_index. rewrite (nth_error_nth' _ 0%nat) by (rewrite seq_length; auto). rewrite seq_nth by auto. reflexivity.
  - intros j Hj. apply L. apply (nth_error_In _ j). apply Hget. auto.
  - intros j Hj. apply (F j); auto. apply Hget. lia.
Qed.

Lemma best_angle_bad cost step sched : ~ (0 < step <= 2 * PI) ->
  (forall n, Permutation (sched n) (seq 0 n)) -> forall a, bf_computeBestAngle cost step sched <> Ok a.
Proof.
  intros H HP a. unfold bf_computeBestAngle, bf_count. pose proof PI_RGT_0.
  destruct (Req_EM_T step 0); [discriminate|]. unfold to_int.
  destruct (_ && _)%bool; [|discriminate]. cbn [bind]. destruct (Z.ltb_spec (Rtrunc (2 * PI / step)) 0) as [|Hz]; [discriminate|].
  replace (Rtrunc (2 * PI / step)) with 0%Z.
  - simpl. specialize (HP 0%nat). simpl in HP. apply Permutation_sym, Permutation_nil in HP. rewrite HP. discriminate.
  - destruct (Rlt_dec step 0) as [Hn|Hn].
    + assert (Hq : 0 < 2 * PI / (- step)) by (apply Rmult_lt_0_compat; [lra|apply Rinv_0_lt_compat; lra]).
      assert (Eq : 2 * PI / step = - (2 * PI / (- step))) by (field; auto). rewrite Eq in *.
      rewrite trunc_neg in * by lra. rewrite Ropp_involutive in *.
      destruct (trunc_spec (2 * PI / - step)); [lra|]. lia.
    + assert (0 < step) by lra. assert (2 * PI < step) by lra.
      assert (Hq : 0 <= 2 * PI / step) by (apply Rmult_le_pos; [lra|left; apply Rinv_0_lt_compat; lra]).
      destruct (trunc_spec _ Hq) as [A B].
      assert (E : 2 * PI = 2 * PI / step * step) by (field; lra).
      assert (2 * PI / step < 1) by (apply (Rmult_lt_reg_r step); lra).
      assert (Rtrunc (2 * PI / step) < 1)%Z; [apply lt_IZR; lra|lia].
Qed.

Lemma best_angle_step_small cost step sched : 0 < step -> 2147483648 <= 2 * PI / step ->
  bf_computeBestAngle cost step sched = UB.
Proof.
  intros H1 H2. unfold bf_computeBestAngle, bf_count. destruct (Req_EM_T step 0); [lra|]. unfold to_int.
  replace (_ && _)%bool with false; auto. symmetry. apply andb_false_iff. right. apply Z.leb_gt.
  destruct (trunc_spec (2 * PI / step)) as [A B]; [lra|].
  assert (2147483648 < Rtrunc (2 * PI / step) + 1)%Z; [apply lt_IZR; rewrite plus_IZR; lra|lia].
Qed.

Lemma best_angle_large cost step sched : 2 * PI < step -> (forall n, Permutation (sched n) (seq 0 n)) ->
  bf_computeBestAngle cost step sched = UB.
Proof.
  intros H HP. pose proof PI_RGT_0. unfold bf_computeBestAngle, bf_count. destruct (Req_EM_T step 0); [lra|].
  assert (Hq : 0 <= 2 * PI / step) by (apply Rmult_le_pos; [lra|left; apply Rinv_0_lt_compat; lra]).
  destruct (trunc_spec _ Hq) as [A B].
  assert (E : 2 * PI = 2 * PI / step * step) by (field; lra).
  assert (2 * PI / step < 1) by (apply (Rmult_lt_reg_r step); lra).
  assert (Rtrunc (2 * PI / step) < 1)%Z by (apply lt_IZR; lra).
  replace (Rtrunc (2 * PI / step)) with 0%Z by lia. simpl.
  specialize (HP 0%nat). apply Permutation_sym, Permutation_nil in HP. rewrite HP. reflexivity.
Qed.

Lemma best_angle_negative cost step sched : step < 0 -> - (2 * PI) <= step -> 2 * PI / (- step) < 2147483648 ->
  bf_computeBestAngle cost step sched = Throw LengthError.
Proof.
  intros H H1 H2. pose proof PI_RGT_0. unfold bf_computeBestAngle, bf_count. destruct (Req_EM_T step 0); [lra|].
  assert (Hq : 1 <= 2 * PI / (- step)).
  { apply (Rmult_le_reg_r (- step)); [lra|]. unfold Rdiv. rewrite Rmult_assoc, Rinv_l by lra. lra. }
  assert (Eq : 2 * PI / step = - (2 * PI / (- step))) by (field; auto). rewrite Eq in *.
  rewrite trunc_neg by lra. rewrite Ropp_involutive.
  destruct (trunc_spec (2 * PI / - step)) as [A B]; [lra|].
  assert (0 < Rtrunc (2 * PI / - step))%Z by (apply lt_IZR; lra).
  assert (Rtrunc (2 * PI / - step) < 2147483648)%Z by (apply lt_IZR; lra).
  unfold to_int. replace (_ && _)%bool with true.
  - cbn [bind]. destruct (Z.ltb_spec (- Rtrunc (2 * PI / - step)) 0); [auto|lia].
  - symmetry. apply andb_true_iff. split; apply Z.leb_le; lia.
Qed.

(** Headlands. *)
Section Headland.
  Context {CS : Type}.
  Variable buffer : CS -> R -> CS.

  Lemma outwards_nth w : forall k back i, (i < k)%nat ->
    nth_error (hl_outwards buffer w back k) i = Some (Nat.iter (S i) (fun c => buffer c w) back).
  Proof.
    induction k as [|k IH]; intros back i Hi; [lia|]. destruct i as [|i]; [reflexivity|].
    cbn [hl_outwards nth_error]. rewrite IH by lia. f_equal. clear. revert back. induction i as [|i IH]; intro b; [reflexivity|].
    change (Nat.iter (S (S i)) (fun c => buffer c w) (buffer b w)) with (buffer (Nat.iter (S i) (fun c => buffer c w) (buffer b w)) w).
    rewrite IH. reflexivity.
  Qed.

  Lemma outwards_length w k : forall back, length (hl_outwards buffer w back k) = k.
  Proof. induction k; intro; simpl; auto. Qed.
End Headland.
