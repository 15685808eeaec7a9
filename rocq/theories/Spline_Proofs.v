From Coq Require Import List Arith ZArith Lia Bool Reals Lra Psatz.
From Verif Require Import Outcome ListAux Num Spline_Model Spline_Spec.
Import ListNotations.
Open Scope R_scope.

(** The derivatives of the specification are derivatives. *)
Lemma cubic_derivative x a b c d t : derivable_pt_lim (cubic x a b c d) t (cubic' x b c d t).
Proof.
  unfold cubic, cubic'. 
  replace (b + 2 * c * (t - x) + 3 * d * (t - x) ^ 2) with
    (0 + (0 * (t - x) + b * (1 - 0)) + (0 * (t - x) ^ 2 + c * (INR 2 * (t - x) ^ pred 2 * (1 - 0))) + (0 * (t - x) ^ 3 + d * (INR 3 * (t - x) ^ pred 3 * (1 - 0)))) by (simpl; ring).
  repeat apply derivable_pt_lim_plus.
  - apply derivable_pt_lim_const.
  - apply (derivable_pt_lim_mult (fct_cte b) (fun t => t - x)); [apply derivable_pt_lim_const|].
    apply (derivable_pt_lim_minus id (fct_cte x)); [apply derivable_pt_lim_id|apply derivable_pt_lim_const].
  - apply (derivable_pt_lim_mult (fct_cte c) (fun t => (t - x) ^ 2)); [apply derivable_pt_lim_const|].
    apply (derivable_pt_lim_comp (fun t => t - x) (fun u => u ^ 2)); [|apply derivable_pt_lim_pow].
    apply (derivable_pt_lim_minus id (fct_cte x)); [apply derivable_pt_lim_id|apply derivable_pt_lim_const].
  - apply (derivable_pt_lim_mult (fct_cte d) (fun t => (t - x) ^ 3)); [apply derivable_pt_lim_const|].
    apply (derivable_pt_lim_comp (fun t => t - x) (fun u => u ^ 3)); [|apply derivable_pt_lim_pow].
    apply (derivable_pt_lim_minus id (fct_cte x)); [apply derivable_pt_lim_id|apply derivable_pt_lim_const].
Qed.
Lemma cubic'_derivative x b c d t : derivable_pt_lim (cubic' x b c d) t (cubic'' x c d t).
Proof.
  replace (cubic'' x c d t) with (cubic' x (2 * c) (3 * d) 0 t) by (unfold cubic', cubic''; ring).
  apply (derivable_pt_lim_ext (cubic x b (2 * c) (3 * d) 0)); [intro; unfold cubic, cubic'; ring|]. apply cubic_derivative.
Qed.

Ltac rn := unfold knot in *; change (carrier RNum) with R in *.
Notation rknot := (knot RNum).
Notation rrow := (row RNum).
Notation rcoef := (coef RNum).

Fixpoint inc (k : rknot) (ks : list rknot) : Prop :=
  match ks with [] => True | kp :: ks' => fst k < fst kp /\ inc kp ks' end.

(** All rows of a list have positive h and l. *)
Definition row_ok (r : rrow) : Prop := 0 < r_h r /\ 0 < r_l r /\ 0 <= r_u r < 1.

Lemma rows_ok ks : forall (prev : rrow) (km k : rknot), 0 < r_h prev -> 0 <= r_u prev < 1 ->
  r_h prev = fst k - fst km -> inc k ks ->
  exists rs, spl_rows RNum prev km k ks = Ok rs /\ length rs = length ks /\ Forall row_ok rs.
Proof.
  induction ks as [|kp ks IH]; intros prev km k Hh Hu E HI; cbn [spl_rows].
  - exists []. auto.
  - destruct HI as [H1 H2]. unfold spl_row.
    replace (nltb RNum (fst k) (fst kp)) with true by (symmetry; apply Rltb_true; auto). cbn [bind].
    set (r := mkRow _ _ _ _).
    assert (Hr : row_ok r).
    { unfold r, row_ok. clear r. simpl. rn.
      assert (Hl : fst kp - fst k < 2 * (fst kp - fst km) - r_h prev * r_u prev).
      { assert (r_h prev * r_u prev <= r_h prev * 1) by (apply Rmult_le_compat_l; lra). rewrite E in *. lra. }
      split; [lra|]. split; [lra|]. split.
      - apply Rmult_le_pos; [lra|]. left. apply Rinv_0_lt_compat. lra.
      - apply (Rmult_lt_reg_r (2 * (fst kp - fst km) - r_h prev * r_u prev)); [lra|].
        unfold Rdiv. rewrite Rmult_assoc, Rinv_l by lra. lra. }
    destruct (IH r k kp) as (rs & -> & L & F); try apply Hr; auto.
    cbn [bind]. exists (r :: rs). split; auto. split; [simpl; lia|auto].
Qed.

Definition pv (k : rknot) (c : rcoef) (t : R) : R := cubic (fst k) (snd k) (k_b c) (k_c c) (k_d c) t.
Definition pv' (k : rknot) (c : rcoef) (t : R) : R := cubic' (fst k) (k_b c) (k_c c) (k_d c) t.
Definition pv'' (k : rknot) (c : rcoef) (t : R) : R := cubic'' (fst k) (k_c c) (k_d c) t.

Fixpoint good (k : rknot) (ks : list rknot) (cs : list rcoef) : Prop :=
  match ks, cs with
  | [], [c] => k_b c = 0 /\ k_c c = 0 /\ k_d c = 0
  | kp :: ks', c :: ((c' :: _) as cs') =>
      pv k c (fst kp) = snd kp /\ (ks' <> [] -> pv' k c (fst kp) = pv' kp c' (fst kp)) /\
      pv'' k c (fst kp) = pv'' kp c' (fst kp) /\ good kp ks' cs'
  | _, _ => False
  end.

Lemma coef_ends (r : rrow) (k kp : rknot) (c1 : R) : r_h r = fst kp - fst k -> 0 < r_h r ->
  pv k (spl_coef RNum r k kp c1) (fst kp) = snd kp /\
  pv'' k (spl_coef RNum r k kp c1) (fst kp) = 2 * c1 /\
  pv' k (spl_coef RNum r k kp c1) (fst kp) = (snd kp - snd k) / r_h r + r_h r * (2 * c1 + (r_z r - r_u r * c1)) / 3.
Proof.
  intros E H. unfold pv, pv', pv'', cubic, cubic', cubic'', spl_coef. simpl.
  rn. rewrite <- E. split; [|split]; field; lra.
Qed.

Lemma slope_eq (hp h up zp dyp dy cc L : R) : 0 < hp -> 0 < h -> L = 2 * (hp + h) - hp * up -> 0 < L ->
  let z := (3 / h * dy - 3 / hp * dyp - hp * zp) / L in
  let cm := z - h / L * cc in
  dyp / hp + hp * (2 * cm + (zp - up * cm)) / 3 = dy / h - h * (cc + 2 * cm) / 3.
Proof.
  intros Hp Hh EL HL z cm.
  assert (Hcm : L * cm = 3 / h * dy - 3 / hp * dyp - hp * zp - h * cc) by (unfold cm, z; field; lra).
  assert (Hx : 3 / h * dy = 3 * (dy / h)) by (field; lra).
  assert (Hy : 3 / hp * dyp = 3 * (dyp / hp)) by (field; lra).
  rewrite Hx, Hy, EL in Hcm. clearbody cm. set (Y := dy / h) in *. set (Y0 := dyp / hp) in *.
  assert (hp * (2 * cm + (zp - up * cm)) + h * (cc + 2 * cm) = 3 * Y - 3 * Y0); [|lra].
  transitivity ((2 * (hp + h) - hp * up) * cm + hp * zp + h * cc); [ring|]. lra.
Qed.

Lemma solve_good ks : forall (prev : rrow) (km k : rknot) rs, 0 < r_h prev -> 0 <= r_u prev < 1 ->
  r_h prev = fst k - fst km -> inc k ks -> spl_rows RNum prev km k ks = Ok rs ->
  good km (k :: ks) (spl_coefs RNum (prev :: rs) km (k :: ks)) /\
  exists c cs, spl_coefs RNum rs k ks = c :: cs.
Proof.
  induction ks as [|kp ks IH]; intros prev km k rs Hh Hu E HI Hrs; cbn [spl_rows] in Hrs.
  - injection Hrs as <-. split; [|cbn; eauto].
    destruct (coef_ends prev km k 0 E Hh) as (A & B & C).
    cbn [spl_coefs good k_c]. change (nofZ RNum 0) with 0. split; auto. split; [congruence|]. split; [|auto].
    rewrite B. unfold pv'', cubic''. simpl. ring.
  - destruct HI as [H1 H2]. unfold spl_row in Hrs.
    replace (nltb RNum (fst k) (fst kp)) with true in Hrs by (symmetry; apply Rltb_true; auto). cbn [bind] in Hrs.
    set (r := mkRow _ _ _ _) in Hrs.
    assert (Hl : fst kp - fst k < r_l r).
    { unfold r. simpl. assert (r_h prev * r_u prev <= r_h prev * 1) by (apply Rmult_le_compat_l; lra). rewrite E in *. simpl in *. lra. }
    assert (Hru : 0 <= r_u r < 1).
    { change (r_u r) with ((fst kp - fst k) / r_l r). split.
      - apply Rmult_le_pos; [lra|]. left. apply Rinv_0_lt_compat. lra.
      - apply (Rmult_lt_reg_r (r_l r)); [lra|]. unfold Rdiv. rewrite Rmult_assoc, Rinv_l by lra. lra. }
    destruct (spl_rows RNum r k kp ks) as [rs'| | |] eqn:Er; try discriminate. cbn [bind] in Hrs. injection Hrs as <-.
    assert (Hrh : r_h r = fst kp - fst k) by reflexivity.
    destruct (IH r k kp rs') as (G & c1 & cs1 & E1); auto; [rewrite Hrh; lra|].
    assert (E2 : spl_coefs RNum (r :: rs') k (kp :: ks) = spl_coef RNum r k kp (k_c c1) :: c1 :: cs1).
    { cbn [spl_coefs]. rewrite E1. reflexivity. }
    split; [|eauto].
    change (spl_coefs RNum (prev :: r :: rs') km (k :: kp :: ks)) with
      (let rest := spl_coefs RNum (r :: rs') k (kp :: ks) in
       spl_coef RNum prev km k (match rest with [] => nofZ RNum 0 | c :: _ => k_c c end) :: rest).
    rewrite E2 in G |- *. cbv zeta.
    set (ck := spl_coef RNum r k kp (k_c c1)) in *.
    destruct (coef_ends prev km k (k_c ck) E Hh) as (A & B & C).
    cbn [good]. split; auto. split; [|split; [|exact G]].
    + intros _. rewrite C. unfold pv', cubic'. replace (fst k - fst k) with 0 by ring.
      unfold ck, spl_coef. cbn [k_b k_c k_d].
      match goal with |- ?A = _ => transitivity A; [reflexivity|] end.
      assert (EL : r_l r = 2 * (r_h prev + (fst kp - fst k)) - r_h prev * r_u prev).
      { unfold r. simpl. rn. rewrite E. ring. }
      pose proof (slope_eq (r_h prev) (fst kp - fst k) (r_u prev) (r_z prev) (snd k - snd km) (snd kp - snd k) (k_c c1) (r_l r)
        Hh ltac:(lra) EL ltac:(lra)) as HS.
      etransitivity; [exact HS|]. simpl. rn. ring.
    + rewrite B. unfold pv'', cubic''. replace (fst k - fst k) with 0 by ring. ring.
Qed.

(** From the chain to indices. *)
Definition dk : rknot := (0, 0).
Definition dc : rcoef := mkCoef (N := RNum) 0 0 0.

Lemma good_length k ks : forall cs, good k ks cs -> length cs = S (length ks).
Proof.
  revert k. induction ks as [|kp ks IH]; intros k [|c [|c' cs]] H; simpl in H; try tauto; auto.
  destruct H as (_ & _ & _ & H). apply IH in H. simpl in *. lia.
Qed.

Lemma good_nth ks : forall k cs i, good k ks cs -> (i < length ks)%nat ->
  pv (nth i (k :: ks) dk) (nth i cs dc) (fst (nth (S i) (k :: ks) dk)) = snd (nth (S i) (k :: ks) dk) /\
  ((S i < length ks)%nat -> pv' (nth i (k :: ks) dk) (nth i cs dc) (fst (nth (S i) (k :: ks) dk)) =
     pv' (nth (S i) (k :: ks) dk) (nth (S i) cs dc) (fst (nth (S i) (k :: ks) dk))) /\
  pv'' (nth i (k :: ks) dk) (nth i cs dc) (fst (nth (S i) (k :: ks) dk)) =
     pv'' (nth (S i) (k :: ks) dk) (nth (S i) cs dc) (fst (nth (S i) (k :: ks) dk)).
Proof.
  induction ks as [|kp ks IH]; intros k cs i G Hi; [simpl in Hi; lia|].
  destruct cs as [|c [|c' cs]]; simpl in G; try tauto. destruct G as (A & B & C & G).
  destruct i as [|i].
  - simpl. split; auto. split; auto. intro. apply B. destruct ks; [simpl in *; lia|discriminate].
  - simpl in Hi. destruct (IH kp (c' :: cs) i G) as (P1 & P2 & P3); [lia|]. 
    split; [exact P1|]. split; [|exact P3]. intro Hs. apply P2. simpl in Hs. lia.
Qed.

Lemma good_last ks : forall k cs, good k ks cs -> nth (length ks) cs dc = dc.
Proof.
  induction ks as [|kp ks IH]; intros k cs G.
  - destruct cs as [|c [|c' cs]]; simpl in G; try tauto. destruct c as [b c d]. simpl in *. destruct G as (-> & -> & ->). reflexivity.
  - destruct cs as [|c [|c' cs]]; simpl in G; try tauto. destruct G as (_ & _ & _ & G). apply IH in G. exact G.
Qed.

(** The binary search. *)
Lemma search_ok (xs : list R) (x : R) fuel : forall l h, (h - l <= fuel)%nat -> (h <= length xs)%nat -> (l <= h)%nat ->
  (forall i j, (i < j)%nat -> (j < length xs)%nat -> nth i xs 0 <= nth j xs 0) ->
  (forall i, (i < l)%nat -> nth i xs 0 < x) -> (forall i, (h <= i)%nat -> (i < length xs)%nat -> x <= nth i xs 0) ->
  exists r, spl_search RNum fuel xs x l h = Ok r /\ (r <= length xs)%nat /\
    (forall i, (i < r)%nat -> nth i xs 0 < x) /\ (forall i, (r <= i)%nat -> (i < length xs)%nat -> x <= nth i xs 0).
Proof.
  induction fuel as [|fuel IH]; intros l h Hf Hh Hl HS H1 H2; cbn [spl_search].
  - assert (l = h) by lia. subst. rewrite Nat.ltb_irrefl. exists h. auto.
  - destruct (Nat.ltb_spec l h) as [Hlt|Hge].
    + set (mid := Nat.div2 (l + h)).
      assert (Hm : (l <= mid < h)%nat).
      { unfold mid. pose proof (Nat.div2_odd (l + h)). destruct (Nat.odd (l + h)); simpl in *; lia. }
      unfold vec_index. rewrite (nth_error_nth' xs 0) by lia. cbn [bind].
      destruct (nleb RNum x (nth mid xs 0)) eqn:C.
      * apply Rleb_true in C. apply IH; auto; try lia.
        intros i Hi Hi'. destruct (Nat.eq_dec i mid) as [->|]; auto. 
        apply Rle_trans with (nth mid xs 0); auto. apply HS; lia.
      * apply Rleb_false in C. apply IH; auto; try lia.
        intros i Hi. destruct (Nat.eq_dec i mid) as [->|]; auto. 
        apply Rle_lt_trans with (nth mid xs 0); auto. apply HS; lia.
    + assert (l = h) by lia. subst. exists h. auto.
Qed.
