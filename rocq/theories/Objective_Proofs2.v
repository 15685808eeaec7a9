(** Proofs about swath objectives. *)
From Coq Require Import List Arith ZArith Lia Bool Reals Lra Permutation.
From Verif Require Import Outcome ListAux Num Swath_Model Objective_Model Objective_Spec Objective_Proofs.
Import ListNotations.
Open Scope R_scope.

Lemma rsum_app l l' : rsum (l ++ l') = rsum l + rsum l'.
Proof. induction l; simpl; [lra|]. fold rsum in *. simpl in IHl. unfold rsum in *. simpl. lra. Qed.

Lemma rsum_perm l l' : Permutation l l' -> rsum l = rsum l'.
Proof. induction 1; simpl; try lra; unfold rsum in *; simpl in *; lra. Qed.

Lemma rsum_filter {A} (f : A -> R) (p : A -> bool) l :
  rsum (map f (filter p l)) + rsum (map f (filter (fun a => negb (p a)) l)) = rsum (map f l).
Proof. induction l as [|a l IH]; simpl; [lra|]. destruct (p a); simpl; unfold rsum in *; simpl in *; lra. Qed.

Lemma rsum_flat_map {A B} (f : B -> R) (g : A -> list B) l :
  rsum (map f (flat_map g l)) = rsum (map (fun a => rsum (map f (g a))) l).
Proof. induction l as [|a l IH]; simpl; auto. rewrite map_app, rsum_app, IH. auto. Qed.

Lemma rsum_nonneg l : (forall x, In x l -> 0 <= x) -> 0 <= rsum l.
Proof.
  induction l as [|a l IH]; intro H; simpl; [lra|]. assert (0 <= a) by (apply H; left; auto).
  assert (0 <= rsum l) by (apply IH; intros; apply H; right; auto). unfold rsum in *. lra.
Qed.

Lemma rsum_ext {A} (f g : A -> R) l : (forall a, In a l -> f a = g a) -> rsum (map f l) = rsum (map g l).
Proof. intro H. f_equal. apply map_ext_in. auto. Qed.

(** Pairs. *)
Lemma pairs_map {A B} (g : A -> B) l : pairs (map g l) = map (fun p => (g (fst p), g (snd p))) (pairs l).
Proof.
  induction l as [|a l IH]; simpl; auto. rewrite map_app, !map_map, IH. auto.
Qed.

Lemma pairs_perm {A} (f : A -> A -> R) : (forall a b, f a b = f b a) ->
  forall l l', Permutation l l' ->
  rsum (map (fun p => f (fst p) (snd p)) (pairs l)) = rsum (map (fun p => f (fst p) (snd p)) (pairs l')).
Proof.
  intros Hs l l' H. induction H; simpl; auto.
  - rewrite !map_app, !map_map, !rsum_app, IHPermutation. f_equal. simpl.
    apply rsum_perm. apply Permutation_map. auto.
  - repeat (rewrite ?map_app, ?map_map, ?rsum_app; simpl). rewrite (Hs x y). unfold rsum. simpl. lra.
  - congruence.
Qed.

Lemma pairs_seq a k : pairs (seq a k) = flat_map (fun i => map (fun j => (i, j)) (seq (S i) (a + k - S i))) (seq a k).
Proof.
  revert a. induction k as [|k IH]; intro a; simpl; auto.
  replace (a + S k - S a)%nat with k by lia. rewrite IH. f_equal.
  rewrite !flat_map_concat_map. f_equal. apply map_ext_in. intros i _. f_equal. f_equal. lia.
Qed.

Lemma filter_map {A B} (p : B -> bool) (f : A -> B) l : filter p (map f l) = map f (filter (fun a => p (f a)) l).
Proof. induction l as [|a l IH]; simpl; auto. destruct (p (f a)); simpl; rewrite IH; auto. Qed.

Lemma filter_flat_map {A B} (p : B -> bool) (f : A -> list B) l : filter p (flat_map f l) = flat_map (fun a => filter p (f a)) l.
Proof. induction l as [|a l IH]; simpl; auto. rewrite filter_app, IH. auto. Qed.

Lemma filter_ltb_seq m : forall k a, filter (fun j => j <? m)%nat (seq a k) = seq a (Nat.min k (m - a)).
Proof.
  induction k as [|k IH]; intro a; simpl; auto. destruct (Nat.ltb_spec a m).
  - rewrite IH. replace (m - a)%nat with (S (m - S a)) by lia. auto.
  - replace (m - a)%nat with 0%nat by lia. rewrite IH. replace (m - S a)%nat with 0%nat by lia. rewrite Nat.min_0_r. auto.
Qed.

Lemma list_nth {A} (l : list A) d : l = map (fun i => nth i l d) (seq 0 (length l)).
Proof.
  induction l as [|a l IH]; auto. simpl. f_equal. rewrite <- seq_shift, map_map. auto.
Qed.

Section Overlap.
  Context {CS S : Type}.
  Variable cs_area : CS -> R.
  Variable covered : CS -> S -> CS.
  Variable intersects : CS -> CS -> bool.
  Variable inter : CS -> CS -> CS.
  Variable poly : CS.
  Variable l : list S.

  Definition ov (a b : CS) : R := if intersects a b then cs_area (inter a b) else 0.
  Let A := map (covered poly) (rev l).
  Let n := length l.
  Let f (i j : nat) : R := ov (nth i A poly) (nth j A poly).

  Lemma A_len : length A = n.
  Proof. unfold A. rewrite map_length, rev_length. auto. Qed.

  Lemma inner_ok areas i js : forall acc, (i < length areas)%nat ->
    (forall j, In j js -> (j < length areas)%nat) -> (forall j, (j < length areas)%nat -> nth j areas poly = nth j A poly) ->
    foldM (fun acc j => do ai <- vec_index areas i; do aj <- vec_index areas j;
       Ok (if intersects ai aj then nadd RNum acc (cs_area (inter ai aj)) else acc)) js acc
    = Ok (acc + rsum (map (f i) js)).
  Proof.
    induction js as [|j js IH]; intros acc Hi Hj HE.
    - cbn. f_equal. lra.
    - cbn [foldM]. unfold vec_index. rewrite (nth_error_nth' areas poly Hi).
      rewrite (nth_error_nth' areas poly (Hj j (or_introl eq_refl))). cbn [bind].
      unfold vec_index in IH. rewrite (nth_error_nth' areas poly Hi) in IH.
      rewrite IH; auto. 2: { intros; apply Hj; right; auto. }
      rewrite (HE i Hi), (HE j) by (apply Hj; left; auto).
      cbn [map rsum fold_right]. unfold f, ov. f_equal. fold (rsum (map (fun j0 => f i j0) js)).
      destruct (intersects (nth i A poly) (nth j A poly)); simpl nadd; unfold rsum, f, ov; lra.
  Qed.

  (** Pairs counted for index [i]. *)
  Definition row (i : nat) : list nat := seq (Datatypes.S i) (n - i - Datatypes.S i).

  Lemma loop_ok : forall k, (k <= n)%nat ->
    foldM (ov_step RNum cs_area covered intersects inter poly l) (rev (seq (n - k) k)) ([], nofZ RNum 0)
    = Ok (firstn k A, rsum (map (fun i => rsum (map (f i) (row i))) (seq (n - k) k))).
  Proof.
    induction k as [|k IH]; intro Hk; [reflexivity|].
    replace (seq (n - Datatypes.S k) (Datatypes.S k)) with ((n - Datatypes.S k)%nat :: seq (n - k) k)
      by (simpl; f_equal; f_equal; lia).
    cbn [rev]. rewrite foldM_app, IH by lia. cbn [bind foldM]. set (i := (n - Datatypes.S k)%nat).
    unfold ov_step. unfold vec_index at 1.
    destruct (nth_error l i) as [s|] eqn:E; [|apply nth_error_None in E; unfold i, n in *; lia].
    cbn [bind fst snd].
    assert (EA : firstn k A ++ [covered poly s] = firstn (Datatypes.S k) A).
    { assert (Hk' : nth_error A k = Some (covered poly s)).
      { unfold A. apply map_nth_error. rewrite nth_error_rev_lt by (fold n; lia). fold n.
        replace (n - 1 - k)%nat with i by (unfold i; lia). auto. }
      rewrite <- (firstn_skipn k A) at 2. rewrite firstn_app, firstn_firstn.
      assert (Hl : length (firstn k A) = k) by (rewrite firstn_length, A_len; lia).
      rewrite Hl. replace (Nat.min (Datatypes.S k) k) with k by lia. f_equal.
      replace (Datatypes.S k - k)%nat with 1%nat by lia.
      assert (Hs : nth_error (skipn k A) 0 = Some (covered poly s)) by (rewrite nth_error_skipn', Nat.add_0_r; auto).
      destruct (skipn k A); simpl in *; congruence. }
    rewrite EA.
    assert (Hl : length (firstn (Datatypes.S k) A) = Datatypes.S k) by (rewrite firstn_length, A_len; lia).
    destruct (le_lt_dec (Datatypes.S k) (Datatypes.S i)) as [Hle|Hlt].
    - (* no pairs *)
      rewrite Hl. replace (Datatypes.S k - Datatypes.S i)%nat with 0%nat by lia. cbn [seq foldM bind].
      f_equal. f_equal. cbn [map rsum fold_right]. unfold row at 2.
      replace (n - i - Datatypes.S i)%nat with 0%nat by (unfold i; lia). unfold rsum. simpl. lra.
    - rewrite inner_ok.
      + cbn [bind]. f_equal. f_equal. cbn [map rsum fold_right]. unfold row at 2. rewrite Hl.
        replace (n - i - Datatypes.S i)%nat with (Datatypes.S k - Datatypes.S i)%nat by (unfold i; lia).
        unfold rsum. lra.
      + rewrite Hl. lia.
      + rewrite Hl. intros j Hj. apply in_seq in Hj. lia.
      + rewrite Hl. intros j Hj. rewrite !nth_default_nth || idtac.
        pose proof (nth_error_firstn_lt (Datatypes.S k) A j Hj) as X.
        rewrite (nth_error_nth' A poly) in X by (rewrite A_len; lia).
        apply nth_error_nth. auto.
  Qed.

  Lemma ov_exact : ov_cost RNum cs_area covered intersects inter poly l =
    Ok (rsum (map (fun p => f (fst p) (snd p)) (filter (fun p => fst p + snd p <? n)%nat (pairs (seq 0 n)))) / cs_area poly).
  Proof.
    unfold ov_cost. pose proof (loop_ok n (le_n n)) as H. rewrite Nat.sub_diag in H.
    fold n. rewrite H. cbn [bind snd]. simpl ndiv. f_equal. f_equal.
    rewrite pairs_seq, filter_flat_map, rsum_flat_map. apply rsum_ext. intros i Hi. apply in_seq in Hi.
    rewrite filter_map, map_map. simpl fst. simpl snd. unfold row.
    f_equal. f_equal.
    rewrite (filter_ext _ (fun j => j <? n - i)%nat).
    2: { intro j. destruct (Nat.ltb_spec (i + j) n), (Nat.ltb_spec j (n - i)); auto; lia. }
    rewrite filter_ltb_seq. f_equal. lia.
  Qed.

  (** All pairs of areas, in the code's order and in the order of the swaths. *)
  Lemma ov_all : (forall a b, ov a b = ov b a) ->
    rsum (map (fun p => f (fst p) (snd p)) (pairs (seq 0 n))) =
    rsum (map (fun p => ov (covered poly (fst p)) (covered poly (snd p))) (pairs l)).
  Proof.
    intro Hs. transitivity (rsum (map (fun p => ov (fst p) (snd p)) (pairs A))).
    - rewrite (list_nth A poly) at 1. rewrite A_len, pairs_map, map_map. auto.
    - rewrite (pairs_perm ov Hs A (map (covered poly) l)).
      + rewrite pairs_map, map_map. auto.
      + unfold A. apply Permutation_map. apply Permutation_sym, Permutation_rev.
  Qed.
End Overlap.

Section NSMProofs.
  Context {P : Type}.
  Variable edge : R -> P -> P -> R.

  Lemma prev_pos n i : (i < n)%nat -> (Z.of_nat n <= 2 ^ 64)%Z -> prev_index n (S i) = i.
  Proof.
    intros Hi Hn. unfold prev_index. replace (Z.of_nat (S i) - 1)%Z with (Z.of_nat i) by lia.
    rewrite (Z.mod_small (Z.of_nat i) (2 ^ 64)) by lia. rewrite Z.mod_small by lia. lia.
  Qed.

  Lemma prev_zero n : prev_index n 0 = Z.to_nat ((2 ^ 64 - 1) mod Z.of_nat n).
  Proof. reflexivity. Qed.

  Lemma ring_edges_idx (l : list P) d : ring_edges l = map (fun i => (nth i l d, nth (S i) l d)) (seq 0 (length l - 1)).
  Proof.
    induction l as [|a [|b l] IH]; auto.
    change (ring_edges (a :: b :: l)) with ((a, b) :: ring_edges (b :: l)). rewrite IH.
    replace (length (a :: b :: l) - 1)%nat with (S (length l)) by (simpl; lia).
    replace (length (b :: l) - 1)%nat with (length l) by (simpl; lia). change (seq 0 (S (length l))) with (0%nat :: seq 1 (length l)).
    rewrite <- seq_shift. cbn [map]. f_equal. rewrite map_map. auto.
  Qed.

  Definition wrap_index (n : nat) : nat := Z.to_nat ((2 ^ 64 - 1) mod Z.of_nat n).

  Lemma wrap_lt n : (0 < n)%nat -> (wrap_index n < n)%nat.
  Proof. intro H. unfold wrap_index. pose proof (Z.mod_pos_bound (2 ^ 64 - 1) (Z.of_nat n)). lia. Qed.

  Lemma ring_ok ang ring d acc : ring <> [] -> (Z.of_nat (length ring) <= 2 ^ 64)%Z ->
    nsm_ring RNum edge ang acc ring =
    Ok (acc + rsum (map (fun e => edge ang (snd e) (fst e)) (ring_edges ring))
        + edge ang (nth 0 ring d) (nth (wrap_index (length ring)) ring d)).
  Proof.
    intros Hne Hn. unfold nsm_ring. set (n := length ring).
    assert (Hpos : (0 < n)%nat) by (unfold n; destruct ring; [congruence|simpl; lia]).
    assert (G : forall k a acc, (a + k <= n)%nat -> (0 < a)%nat ->
      foldM (fun acc i => do p <- vec_at ring i; do q <- vec_at ring (prev_index n i); Ok (nadd RNum acc (edge ang p q))) (seq a k) acc
      = Ok (acc + rsum (map (fun i => edge ang (nth i ring d) (nth (i - 1) ring d)) (seq a k)))).
    { induction k as [|k IH]; intros a acc' Hk Ha; [cbn; f_equal; lra|].
      cbn [seq foldM]. unfold vec_at. rewrite (nth_error_nth' ring d) by (fold n; lia).
      destruct a as [|a]; [lia|]. rewrite prev_pos by (fold n in Hn; lia).
      rewrite (nth_error_nth' ring d) by (fold n; lia). cbn [bind].
      unfold vec_at in IH. rewrite IH by lia. simpl nadd. cbn [map rsum fold_right].
      replace (S a - 1)%nat with a by lia. unfold rsum. f_equal. lra. }
    replace (seq 0 n) with (0%nat :: seq 1 (n - 1)) by (destruct n; [lia|simpl; rewrite Nat.sub_0_r; auto]).
    cbn [foldM]. unfold vec_at at 1 2. rewrite (nth_error_nth' ring d) by (fold n; lia). rewrite prev_zero.
    fold (wrap_index n). rewrite (nth_error_nth' ring d) by (fold n; apply wrap_lt; auto). cbn [bind].
    rewrite G by lia. f_equal. rewrite (ring_edges_idx ring d), map_map. fold n.
    rewrite <- seq_shift, map_map. simpl nadd.
    rewrite (rsum_ext (fun x => edge ang (nth (S x) ring d) (nth (S x - 1) ring d))
      (fun x => edge ang (snd (nth x ring d, nth (S x) ring d)) (fst (nth x ring d, nth (S x) ring d)))).
    - lra.
    - intros i _. simpl. rewrite Nat.sub_0_r. auto.
  Qed.

  Lemma rings_ok ang d rings : forall acc,
    Forall (fun r => r <> [] /\ (Z.of_nat (length r) <= 2 ^ 64)%Z) rings ->
    foldM (nsm_ring RNum edge ang) rings acc =
    Ok (acc + rsum (map (fun r => rsum (map (fun e => edge ang (snd e) (fst e)) (ring_edges r))
        + edge ang (nth 0 r d) (nth (wrap_index (length r)) r d)) rings)).
  Proof.
    induction rings as [|r rings IH]; intros acc H.
    - cbn. f_equal. lra.
    - inversion H as [|? ? [H1 H2] H3]; subst. cbn [foldM]. rewrite (ring_ok ang r d) by auto. cbn [bind].
      rewrite IH by auto. f_equal. cbn [map rsum fold_right]. unfold rsum. lra.
  Qed.
End NSMProofs.

Section SGProofs.
  Context {C CS S : Type}.
  Variable s_length : S -> R.

  Lemma count_sum (l : list S) (k : sg_kind) : k = SGNSwath \/ k = SGNSwathModified ->
    rsum (map (sg_swath RNum s_length k) l) = IZR (Z.of_nat (length l)).
  Proof.
    intro Hk. assert (E : forall s, sg_swath RNum s_length k s = 1) by (intro; destruct Hk; subst; reflexivity).
    induction l as [|s l IH]; [reflexivity|]. cbn [map rsum fold_right length]. fold (rsum (map (sg_swath RNum s_length k) l)).
    rewrite IH, E. rewrite Nat2Z.inj_succ, succ_IZR. lra.
  Qed.

  Lemma swaths_sum (k : sg_kind) (l : list S) : sg_swaths RNum s_length k l = rsum (map (sg_swath RNum s_length k) l).
  Proof.
    destruct k; unfold sg_swaths; 
      try (match goal with |- context [sg_swath RNum s_length ?k] =>
             pose proof (fold_acc (sg_swath RNum s_length k) l 0) as H end;
           rewrite Rplus_0_l in H; exact H).
    - rewrite count_sum; auto.
    - rewrite count_sum; auto.
  Qed.

  Lemma rsum_concat {A} (f : A -> R) (d : list (list A)) : rsum (map (fun l => rsum (map f l)) d) = rsum (map f (concat d)).
  Proof. induction d as [|l d IH]; [reflexivity|]. simpl. rewrite map_app, rsum_app, <- IH. auto. Qed.

  Lemma by_cells_sum (k : sg_kind) (d : list (list S)) : sg_by_cells RNum s_length k d = sg_swaths RNum s_length k (concat d).
  Proof.
    rewrite swaths_sum, <- rsum_concat. pose proof (fold_acc (sg_swaths RNum s_length k) d 0) as H.
    rewrite Rplus_0_l in H. etransitivity; [exact H|]. apply rsum_ext. intros; apply swaths_sum.
  Qed.
End SGProofs.
