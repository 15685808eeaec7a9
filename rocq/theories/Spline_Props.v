(** Theorems about the cubic spline. *)
From Coq Require Import List Arith ZArith Lia Bool Reals Lra Psatz Floats.
From Verif Require Import Outcome ListAux Num Spline_Model Spline_Spec Spline_Proofs.
Import ListNotations.
Open Scope R_scope.
Ltac rl := cbn [length] in *; unfold knot in *; change (carrier RNum) with R in *; lia.

Lemma combine_nth_r (xs ys : list R) i : length xs = length ys -> (i < length xs)%nat ->
  nth i (combine xs ys) dk = (nth i xs 0, nth i ys 0).
Proof. intros. unfold dk. apply combine_nth. auto. Qed.

Lemma inc_of ks : forall k : rknot, (forall i, (i < length ks)%nat -> fst (nth i (k :: ks) dk) < fst (nth (S i) (k :: ks) dk)) -> inc k ks.
Proof.
  induction ks as [|kp ks IH]; intros k H; simpl; auto. split.
  - apply (H 0%nat). simpl. lia.
  - apply IH. intros i Hi. apply (H (S i)). simpl. lia.
Qed.

Lemma inc_le (x : nat -> R) n : increasing x n -> forall j i, (i <= j)%nat -> (j < n)%nat -> x i <= x j.
Proof.
  intros H. induction j as [|j IH]; intros i Hi Hj.
  - replace i with 0%nat by lia. lra.
  - destruct (Nat.eq_dec i (S j)) as [->|]; [lra|]. apply Rle_trans with (x j); [apply IH; lia|]. left. apply H. auto.
Qed.

Lemma inc_lt (x : nat -> R) n : increasing x n -> forall j i, (i < j)%nat -> (j < n)%nat -> x i < x j.
Proof.
  intros H j i Hi Hj. apply Rlt_le_trans with (x (S i)); [apply H; lia|]. apply (inc_le x n); auto; lia.
Qed.

Lemma poly_cubic (k : rknot) (c : rcoef) t : spl_poly RNum k c t = cubic (fst k) (snd k) (k_b c) (k_c c) (k_d c) t.
Proof. unfold spl_poly, cubic. simpl. rn. ring. Qed.

Section Build.
  Variables xs ys : list R.
  Let n := length xs.
  Let x i := nth i xs 0.
  Let y i := nth i ys 0.
  Hypothesis HL : length xs = length ys.
  Hypothesis Hn : (2 <= n)%nat.
  Hypothesis HI : increasing x n.

  Lemma make_ok : exists k0 k1 ks rs cs, combine xs ys = k0 :: k1 :: ks /\
    spl_solve RNum k0 k1 ks = Ok (rs, cs) /\ Forall row_ok rs /\ good k0 (k1 :: ks) cs /\ length ks = (n - 2)%nat /\
    spl_make RNum xs ys false = Ok (mkSpline (N := RNum) (k0 :: k1 :: ks) (spl_clear RNum cs)) /\
    spl_make RNum xs ys true = UB.
  Proof.
    assert (LC : length (combine xs ys) = n) by (rewrite combine_length; unfold n; lia).
    destruct (combine xs ys) as [|k0 [|k1 ks]] eqn:EC; [simpl in LC; lia|simpl in LC; lia|].
    assert (NC : forall i, (i < n)%nat -> nth i (k0 :: k1 :: ks) dk = (x i, y i)).
    { intros i Hi. rewrite <- EC. apply combine_nth_r; auto. }
    assert (IN : inc k0 (k1 :: ks)).
    { apply inc_of. intros i Hi. simpl in LC, Hi. rn. rewrite !NC by lia. simpl. apply HI. lia. }
    destruct IN as [I1 I2].
    set (r0 := spl_row0 RNum k0 k1).
    assert (Hr0 : row_ok r0). { unfold row_ok, r0, spl_row0. simpl. rn. lra. }
    destruct (rows_ok ks r0 k0 k1) as (rs & Ers & Lrs & Frs); try apply Hr0; auto.
    exists k0, k1, ks, (r0 :: rs), (spl_coefs RNum (r0 :: rs) k0 (k1 :: ks)).
    assert (ES : spl_solve RNum k0 k1 ks = Ok (r0 :: rs, spl_coefs RNum (r0 :: rs) k0 (k1 :: ks))).
    { unfold spl_solve. fold r0. rewrite Ers. reflexivity. }
    split; auto. split; auto. split; auto. split.
    { apply (solve_good ks r0 k0 k1 rs); try apply Hr0; auto. }
    split; [simpl in LC; rn; lia|].
    assert (EB : negb (length xs =? length ys) = false) by (rewrite HL, Nat.eqb_refl; auto).
    unfold spl_make. change (carrier RNum) with R. rewrite EB, EC. rewrite ES. cbn [bind snd]. auto.
  Qed.

  Lemma eval_piece k0 k1 ks cs i t : combine xs ys = k0 :: k1 :: ks -> length cs = n -> (i < n)%nat ->
    (i = 0%nat \/ x i < t) -> (S i = n \/ t <= x (S i)) ->
    spl_eval RNum (mkSpline (N := RNum) (k0 :: k1 :: ks) cs) t =
      Ok (cubic (x i) (y i) (k_b (nth i cs dc)) (k_c (nth i cs dc)) (k_d (nth i cs dc)) t).
  Proof.
    intros EC LC Hi Hlo Hhi.
    assert (Lk : length (k0 :: k1 :: ks) = n) by (rewrite <- EC, combine_length; unfold n; lia).
    assert (EX : map fst (k0 :: k1 :: ks) = xs).
    { rewrite <- EC. clear -HL. revert ys HL. induction xs as [|a l IH]; intros [|b m] H; try discriminate; auto.
      simpl. f_equal. apply IH. auto. }
    unfold spl_eval. cbn [s_knots s_coefs]. change (carrier RNum) with R in *. change (knot RNum) with (R * R)%type in *. rewrite EX, Lk.
    destruct (search_ok xs t n 0 n) as (l & E & Hl & A & B).
    { lia. } { unfold n. lia. } { lia. }
    { intros a b Hab Hb. apply (inc_le x n HI); auto. lia. }
    { intros a Ha. lia. }
    { intros a Ha Hb. unfold n in *. lia. }
    rewrite E. cbn [bind].
    assert (Hp : pred l = i).
    { destruct l as [|l]; simpl.
      - destruct i as [|i]; auto. exfalso. destruct Hlo as [?|Hlo]; [lia|].
        specialize (B (S i) ltac:(lia) Hi). unfold x in Hlo. lra.
      - specialize (A l ltac:(lia)). destruct (Nat.lt_trichotomy l i) as [H|[H|H]]; auto.
        + exfalso. destruct Hlo as [?|Hlo]; [lia|].
          specialize (B i ltac:(lia) ltac:(unfold n in *; lia)). unfold x in Hlo. lra.
        + exfalso. destruct Hhi as [?|Hhi]; [unfold n in *; lia|].
          assert (x (S i) <= x l) by (apply (inc_le x n HI); unfold n in *; lia). unfold x in *. lra. }
    rewrite Hp. unfold vec_index.
    rewrite (nth_error_nth' (k0 :: k1 :: ks) dk) by (rewrite Lk; auto). cbn [bind].
    rewrite (nth_error_nth' cs dc) by (rewrite LC; auto). cbn [bind].
    rewrite poly_cubic. rewrite <- EC. rewrite combine_nth_r by auto. reflexivity.
  Qed.
End Build.

(** C50.  What the spline computes, for strictly increasing knots: the natural
    spline, except that the cubic term of the first piece is missing. *)
Theorem spline_is_natural : forall xs ys : list R, let n := length xs in
  let x i := nth i xs 0 in let y i := nth i ys 0 in
  length xs = length ys -> (2 <= n)%nat -> increasing x n ->
  exists s b c d, spl_make RNum xs ys false = Ok s /\ natural_spline n x y b c d /\
    (forall t, t <= x 1%nat -> spl_eval RNum s t = Ok (cubic (x 0%nat) (y 0%nat) (b 0%nat) 0 0 t)) /\
    (forall i t, (1 <= i)%nat -> (S i < n)%nat -> x i < t <= x (S i) ->
       spl_eval RNum s t = Ok (cubic (x i) (y i) (b i) (c i) (d i) t)) /\
    (forall t, x (n - 1)%nat < t -> spl_eval RNum s t = Ok (y (n - 1)%nat)).
Proof.
  intros xs ys n x y HL Hn HI.
  destruct (make_ok xs ys HL Hn HI) as (k0 & k1 & ks & rs & cs & EC & ES & FR & G & LK & EM & _).
  fold n in LK.
  exists (mkSpline (N := RNum) (k0 :: k1 :: ks) (spl_clear RNum cs)),
    (fun i => k_b (nth i cs dc)), (fun i => k_c (nth i cs dc)), (fun i => k_d (nth i cs dc)).
  split; auto.
  assert (NC : forall i, (i < n)%nat -> nth i (k0 :: k1 :: ks) dk = (x i, y i)).
  { intros i Hi. rewrite <- EC. apply combine_nth_r; auto. }
  pose proof (good_length _ _ _ G) as LCS. simpl in LCS.
  assert (LC2 : length (spl_clear RNum cs) = n).
  { destruct cs; [simpl in LCS; lia|]; cbn [spl_clear length]; unfold n in *; rl. }
  assert (C0 : k_c (nth 0 cs dc) = 0).
  { unfold spl_solve in ES. destruct (spl_rows RNum (spl_row0 RNum k0 k1) k0 k1 ks) as [r1| | |]; try discriminate.
    cbn [bind] in ES. injection ES as <- <-. simpl. ring. }
  assert (NN : natural_spline n x y (fun i => k_b (nth i cs dc)) (fun i => k_c (nth i cs dc)) (fun i => k_d (nth i cs dc))).
  { split; [|split; [|split]].
    - intros i Hi. destruct (good_nth _ _ _ i G) as (P1 & _ & _); [rl|].
      rewrite !NC in P1 by lia. unfold pv in P1. simpl in P1. exact P1.
    - intros i Hi. destruct (good_nth _ _ _ i G) as (_ & P2 & P3); [rl|].
      rewrite !NC in P2, P3 by lia. unfold pv', pv'' in *. simpl fst in *. split; [apply P2; rl|exact P3].
    - unfold cubic''. rewrite C0. replace (x 0%nat - x 0%nat) with 0 by ring. ring.
    - intros i Hi. destruct (good_nth _ _ _ i G) as (_ & _ & P3); [rl|].
      rewrite !NC in P3 by lia. unfold pv'' in P3. simpl fst in P3. rewrite P3.
      assert (EI : nth (S i) cs dc = dc) by (etransitivity; [|exact (good_last _ _ _ G)]; f_equal; rl). rewrite EI. unfold cubic''. simpl. ring. }
  split; auto.
  assert (N0 : nth 0 (spl_clear RNum cs) dc = mkCoef (N := RNum) (k_b (nth 0 cs dc)) 0 0).
  { destruct cs; [simpl in LCS; lia|]. simpl in *. rewrite C0. reflexivity. }
  assert (NS : forall i, (1 <= i)%nat -> nth i (spl_clear RNum cs) dc = nth i cs dc).
  { intros [|i] Hi; [lia|]. destruct cs; reflexivity. }
  split; [|split].
  - intros t Ht. rewrite (eval_piece xs ys HL Hn HI k0 k1 ks _ 0 t); auto; try (unfold n in *; rl).
    rewrite N0. reflexivity.
  - intros i t Hi1 Hi Ht. rewrite (eval_piece xs ys HL Hn HI k0 k1 ks _ i t); auto; try (unfold n in *; rl); try (right; apply Ht).
    rewrite NS by auto. reflexivity.
  - intros t Ht. rewrite (eval_piece xs ys HL Hn HI k0 k1 ks _ (n - 1) t); auto; try (unfold n in *; rl).
    rewrite NS by lia. assert (EI : nth (n - 1) cs dc = dc) by (etransitivity; [|exact (good_last _ _ _ G)]; f_equal; rl). rewrite EI.
    unfold cubic, dc. cbn [k_b k_c k_d]. f_equal. fold (x (n - 1)%nat) (y (n - 1)%nat). ring.
Qed.
Print Assumptions spline_is_natural.

Lemma inc_012 : increasing (fun i => nth i [0; 1; 2] 0) 3.
Proof. intros i Hi. destruct i as [|[|i]]; simpl; try lra. lia. Qed.

Example spline_is_natural_ex : length [0; 1; 2] = length [0; 1; 0] /\ (2 <= length [0; 1; 2])%nat /\
  increasing (fun i => nth i [0; 1; 2] 0) (length [0; 1; 2]).
Proof. split; auto. split; [rl|]. apply inc_012. Qed.

(** No division by zero happens: all h and l are positive. *)
Theorem spline_divisors_positive : forall xs ys : list R, length xs = length ys -> (2 <= length xs)%nat ->
  increasing (fun i => nth i xs 0) (length xs) ->
  exists k0 k1 ks rs cs, combine xs ys = k0 :: k1 :: ks /\ spl_solve RNum k0 k1 ks = Ok (rs, cs) /\
    length rs = (length xs - 1)%nat /\ length cs = length xs /\
    Forall (fun r : rrow => 0 < r_h r /\ 0 < r_l r) rs.
Proof.
  intros xs ys HL Hn HI. destruct (make_ok xs ys HL Hn HI) as (k0 & k1 & ks & rs & cs & EC & ES & FR & G & LK & _).
  exists k0, k1, ks, rs, cs. split; auto. split; auto. split; [|split].
  - unfold spl_solve in ES. destruct (spl_rows RNum (spl_row0 RNum k0 k1) k0 k1 ks) as [r1| | |] eqn:Er; try discriminate.
    cbn [bind] in ES. injection ES as <- <-. simpl.
    assert (L : forall ks (pr : rrow) km k rs, spl_rows RNum pr km k ks = Ok rs -> length rs = length ks).
    { clear. induction ks as [|kp ks IH]; intros pr km k rs H; cbn [spl_rows] in H; [injection H as <-; auto|].
      destruct (spl_row RNum pr km k kp); try discriminate. cbn [bind] in H.
      destruct (spl_rows RNum a k kp ks) eqn:E; try discriminate. injection H as <-. simpl. f_equal. eauto. }
    rewrite (L _ _ _ _ _ Er). unfold knot in *. change (carrier RNum) with R in *. lia.
  - rewrite (good_length _ _ _ G). simpl. unfold knot in *. change (carrier RNum) with R in *. lia.
  - eapply Forall_impl; [|exact FR]. intros r (A & B & _). auto.
Qed.
Print Assumptions spline_divisors_positive.

(** C50: knots. *)
Theorem spline_at_knots : forall xs ys : list R, let n := length xs in
  let x i := nth i xs 0 in let y i := nth i ys 0 in
  length xs = length ys -> (2 <= n)%nat -> increasing x n ->
  exists s b c d, spl_make RNum xs ys false = Ok s /\ natural_spline n x y b c d /\
    (forall i, (i < n)%nat -> i <> 1%nat -> spl_eval RNum s (x i) = Ok (y i)) /\
    spl_eval RNum s (x 1%nat) = Ok (y 1%nat - d 0%nat * (x 1%nat - x 0%nat) ^ 3).
Proof.
  intros xs ys n x y HL Hn HI. destruct (spline_is_natural xs ys HL Hn HI) as (s & b & c & d & E & NS & E0 & E1 & _).
  subst n x y. cbv beta in *. exists s, b, c, d. split; auto. split; auto. destruct NS as (A & B & C & _). split.
  - intros i Hi Hi1. destruct i as [|[|i]]; [|congruence|].
    + rewrite E0; [unfold cubic; f_equal; ring|]. left. apply HI. lia.
    + rewrite (E1 (S i)); [f_equal; apply A; lia|lia|lia|]. split; [apply HI; lia|lra].
  - rewrite E0 by lra. f_equal. specialize (A 0%nat ltac:(lia)). unfold cubic in *.
    assert (C0 : c 0%nat = 0). { unfold cubic'' in C. rewrite Rminus_diag_eq in C by auto. lra. }
    rewrite C0 in A. lra.
Qed.
Print Assumptions spline_at_knots.

Example spline_at_knots_ex : length [0; 1; 2] = length [0; 1; 0] /\ (2 <= length [0; 1; 2])%nat /\
  increasing (fun i => nth i [0; 1; 2] 0) (length [0; 1; 2]).
Proof. exact spline_is_natural_ex. Qed.

(** C49 is false: through (0, 0), (1, 1), (2, 0) the spline has value 1.5 at 1. *)
Theorem spline_interpolates_refuted : exists xs ys : list float,
  xs = [0; 1; 2]%float /\ ys = [0; 1; 0]%float /\
  (do s <- spl_make FNum xs ys false; spl_eval FNum s 1%float) = Ok 1.5%float.
Proof. exists [0; 1; 2]%float, [0; 1; 0]%float. split; [reflexivity|]. split; [reflexivity|]. vm_compute. reflexivity. Qed.
Print Assumptions spline_interpolates_refuted.

(** Continuity is lost there: the value jumps from 1.5 at the knot to about 1 right of it. *)
Theorem spline_jump_refuted : exists xs ys : list float,
  xs = [0; 1; 2]%float /\ ys = [0; 1; 0]%float /\
  (do s <- spl_make FNum xs ys false; spl_eval FNum s 0x1.0000000000001p+0%float) = Ok 1%float.
Proof. exists [0; 1; 2]%float, [0; 1; 0]%float. split; [reflexivity|]. split; [reflexivity|]. vm_compute. reflexivity. Qed.
Print Assumptions spline_jump_refuted.

(** C109.  Errors of the constructor. *)
Theorem spline_errors : forall xs ys : list R,
  (length xs <> length ys -> spl_make RNum xs ys false = Throw OutOfRange) /\
  ((length xs <= 1)%nat -> spl_make RNum xs ys false = Throw OutOfRange) /\
  (forall i, length xs = length ys -> (1 <= i)%nat -> (S i < length xs)%nat -> nth (S i) xs 0 <= nth i xs 0 ->
     spl_make RNum xs ys false = Throw OutOfRange) /\
  (length xs = length ys -> (2 <= length xs)%nat -> increasing (fun i => nth i xs 0) (length xs) ->
     spl_make RNum xs ys true = UB).
Proof.
  intros xs ys. unfold spl_make at 1 2 3. change (carrier RNum) with R. split; [|split; [|split]].
  - intro H. apply Nat.eqb_neq in H. rewrite H. reflexivity.
  - intro H. destruct (negb _); auto. destruct xs as [|a [|b xs]]; simpl in *; [auto| |lia]. destruct ys as [|? [|]]; auto.
  - intros i HL Hi Hi' Hle. rewrite HL, Nat.eqb_refl. cbn [negb].
    assert (LC : length (combine xs ys) = length xs) by (rewrite combine_length; lia).
    assert (NC : forall j, (j < length xs)%nat -> fst (nth j (combine xs ys) dk) = nth j xs 0).
    { intros j Hj. rewrite combine_nth_r by auto. auto. }
    destruct (combine xs ys) as [|k0 [|k1 ks]] eqn:EC; [auto|auto|].
    assert (Q : forall ks (pr : rrow) km k i, (i < length ks)%nat -> fst (nth (S i) (k :: ks) dk) <= fst (nth i (k :: ks) dk) ->
      spl_rows RNum pr km k ks = Throw OutOfRange).
    { clear. induction ks as [|kp ks IH]; intros pr km k i Hi H; [simpl in Hi; lia|]. cbn [spl_rows].
      unfold spl_row. destruct (nltb RNum (fst k) (fst kp)) eqn:C; [|auto]. cbn [bind].
      destruct i as [|i]; [simpl in H; apply Rltb_true in C; rn; lra|].
      erewrite (IH _ k kp i); [reflexivity|simpl in Hi; lia|exact H]. }
    unfold spl_solve. rewrite (Q ks _ k0 k1 (i - 1)%nat); [reflexivity|simpl in LC; unfold knot in *; change (carrier RNum) with R in *; lia|].
    rewrite <- (NC i), <- (NC (S i)) in Hle by lia. destruct i as [|i]; [lia|]. simpl (S i - 1)%nat. rewrite Nat.sub_0_r. exact Hle.
  - intros HL Hn HI. destruct (make_ok xs ys HL Hn HI) as (k0 & k1 & ks & rs & cs & _ & _ & _ & _ & _ & _ & E). exact E.
Qed.
Print Assumptions spline_errors.

Example spline_errors_ex : (S 1 < length [0; 2; 1])%nat /\ nth 2 [0; 2; 1] 0 <= nth 1 [0; 2; 1] 0.
Proof. simpl. split; [lia|lra]. Qed.

(** The first two knots are not checked: C109 as stated is false. *)
Theorem spline_unsorted_refuted : exists s,
  spl_make RNum [1; 0; 2] [0; 0; 0] false = Ok s.
Proof.
  unfold spl_make, spl_solve. cbn [length Nat.eqb negb combine spl_rows]. unfold spl_row. cbn [fst].
  replace (nltb RNum 0 2) with true by (symmetry; apply Rltb_true; lra). cbn [bind]. eauto.
Qed.
Print Assumptions spline_unsorted_refuted.
